(** C108: squeeze, diag, eye_like, stack, reductions of stacks and set_item. *)
From Coq Require Import List Bool Arith ZArith Lia Sorted.
From Verif.Model Require Import Interop ArrayFns ArrayFns2.
From Verif.Spec Require Import ArrayFnsSpec ArrayFns2Spec.
From Verif.Props Require Import ArrayFnsProps.
Import ListNotations.
Local Open Scope nat_scope.
Local Arguments size : simpl never.
Local Arguments Nat.ltb : simpl never.

(** ---- taking axes out ---- *)
Definition only_ones (gone : list bool) (s : list nat) : Prop := Forall2 (fun g n => g = true -> n = 1) gone s.
Lemma valid_length s i : valid s i -> length i = length s.
Proof. intro H. now apply Forall2_len in H. Qed.
Lemma refill_unmarked gone s : only_ones gone s -> forall i, valid s i -> refill gone (unmarked gone i) = i.
Proof.
  induction 1 as [|g n gone s G _ IH]; intros i H; inversion H; subst; [reflexivity|].
  destruct g; cbn; [specialize (G eq_refl); replace x with 0 by lia|]; f_equal; auto.
Qed.
Lemma unmarked_valid gone s : only_ones gone s -> forall i, valid s i -> valid (unmarked gone s) (unmarked gone i).
Proof.
  induction 1 as [|g n gone s G _ IH]; intros i H; inversion H; subst; [constructor|]. destruct g; cbn; [now apply IH|]. constructor; [assumption|]. now apply IH.
Qed.
Lemma unmarked_size gone s : only_ones gone s -> size (unmarked gone s) = size s.
Proof. induction 1 as [|g n gone s G _ IH]; [reflexivity|]. destruct g; cbn; rewrite ?size_cons, IH; [rewrite (G eq_refl); lia|reflexivity]. Qed.
Lemma unmarked_horner gone s : only_ones gone s -> forall i, valid s i -> horner (unmarked gone s) (unmarked gone i) = horner s i.
Proof.
  intros O. induction O as [|g n gone s G O IH]; intros i H; inversion H; subst; [reflexivity|]. destruct g; cbn; rewrite ?unmarked_size by assumption.
  - specialize (G eq_refl). replace x with 0 by lia. rewrite IH by assumption. reflexivity.
  - rewrite IH by assumption. reflexivity.
Qed.
Lemma filter_shift f n : filter f (map S (seq 0 n)) = map S (filter (fun a => f (S a)) (seq 0 n)).
Proof. induction (seq 0 n) as [|a l IH]; cbn; [reflexivity|]. destruct (f (S a)); cbn; now rewrite IH. Qed.
Definition kept_axes (gone : list bool) : list nat := filter (fun a => negb (nth a gone false)) (seq 0 (length gone)).
Lemma unmarked_kept gone : forall l, length l = length gone -> unmarked gone l = map (fun a => nth a l 0) (kept_axes gone).
Proof.
  induction gone as [|g gone IH]; intros [|x l] E; try discriminate; [reflexivity|]. unfold kept_axes. cbn [length seq]. rewrite <- seq_shift. cbn [filter]. rewrite filter_shift.
  cbn [nth]. injection E as E. destruct g; cbn [negb unmarked map nth]; rewrite IH, map_map by assumption; reflexivity.
Qed.
Lemma sorted_filter f n : forall k, StronglySorted lt (filter f (seq k n)).
Proof.
  induction n as [|n IH]; intros k; cbn; [constructor|]. destruct (f k); [|apply IH]. constructor; [apply IH|]. apply Forall_forall. intros a I. apply filter_In in I. destruct I as [I _]. apply in_seq in I. lia.
Qed.
Lemma take_out_ok {V} (x : arr V) gone P : only_ones gone (shape x) -> (forall a, a < length (shape x) -> (P a <-> nth a gone false = true)) ->
  without_axes x (take_out x gone) P /\ same_entries x (take_out x gone).
Proof.
  intros O E. pose proof (Forall2_len _ _ _ O) as L. split.
  - exists (kept_axes gone). split; [apply sorted_filter|]. split; [|split].
    + intros a. unfold kept_axes. rewrite filter_In, in_seq, L. cbn. split; intros [A B].
      * split; [lia|]. rewrite E by lia. intro G. rewrite G in B. discriminate.
      * split; [lia|]. rewrite E in B by lia. destruct (nth a gone false); [now exfalso; apply B|reflexivity].
    + cbn. apply unmarked_kept. congruence.
    + intros i H. rewrite <- unmarked_kept by (rewrite (valid_length _ _ H); congruence). cbn. now rewrite (refill_unmarked _ (shape x)).
  - split; [now apply unmarked_size|]. intros i j Hi Hj Q. cbn in Hj, Q |- *.
    assert (j = unmarked gone i) as ->.
    { pose proof (unmarked_valid _ _ O _ Hi) as Vi. rewrite <- (unravel_horner _ j Hj), <- (unravel_horner _ _ Vi). f_equal.
      rewrite (unmarked_horner _ _ O _ Hi). rewrite <- !place_horner by assumption. congruence. }
    now rewrite (refill_unmarked _ (shape x)).
Qed.
Lemma ones_only s : only_ones (ones s) s.
Proof. induction s as [|n s IH]; constructor; [|exact IH]. intro E. apply Nat.eqb_eq in E. congruence. Qed.
Lemma Forall2_nth_intro {A B} (P : A -> B -> Prop) da db : forall l m, length l = length m -> (forall a, a < length l -> P (nth a l da) (nth a m db)) -> Forall2 P l m.
Proof.
  induction l as [|x l IH]; intros [|y m] E H; try discriminate; constructor.
  - apply (H 0). cbn. lia.
  - apply IH; [cbn in E; lia|]. intros a La. apply (H (S a)). cbn. lia.
Qed.
Lemma map_seq_nth {B} (f : nat -> B) d n a : a < n -> nth a (map f (seq 0 n)) d = f a.
Proof. intro A. rewrite (nth_indep _ d (f 0)) by (now rewrite map_length, seq_length). rewrite map_nth, seq_nth by assumption. reflexivity. Qed.
Lemma isin_In a l : isin a l = true <-> In a l.
Proof. unfold isin. rewrite existsb_exists. split; [intros (b & I & E); apply Nat.eqb_eq in E; now subst|]. intro I. exists a. split; [exact I|apply Nat.eqb_refl]. Qed.
Lemma nodupb_ok l : nodupb l = true <-> NoDup l.
Proof.
  induction l as [|a l IH]; cbn; [split; [constructor|reflexivity]|]. rewrite andb_true_iff, negb_true_iff, IH. split.
  - intros [A B]. constructor; [|exact B]. intro I. apply isin_In in I. congruence.
  - intro N. inversion N; subst. split; [|assumption]. destruct (isin a l) eqn:E; [|reflexivity]. apply isin_In in E. contradiction.
Qed.
Lemma all_one_ok s l : all_one s l = true <-> forall a, In a l -> nth a s 0 = 1.
Proof. unfold all_one. rewrite forallb_forall. split; intros H a I; specialize (H a I); now apply Nat.eqb_eq. Qed.
Lemma axes_ok r l m : Forall2 (names_axis r) l m -> axes_of (axis r) l = Some m.
Proof. induction 1 as [|d a l m H _ IH]; cbn; [reflexivity|]. apply axis_spec in H. now rewrite H, IH. Qed.
Lemma axes_of_in r l : forall m, axes_of (axis r) l = Some m -> Forall2 (names_axis r) l m.
Proof.
  induction l as [|d l IH]; cbn; intros m E; [injection E as <-; constructor|]. destruct (axis r d) eqn:A; [|discriminate]. destruct (axes_of (axis r) l); [|discriminate].
  injection E as <-. constructor; [now apply axis_spec|]. now apply IH.
Qed.
Lemma marks_only s (g : nat -> bool) : (forall a, a < length s -> g a = true -> nth a s 0 = 1) -> only_ones (map g (seq 0 (length s))) s.
Proof.
  intros H. apply (Forall2_nth_intro _ false 0); [now rewrite map_length, seq_length|]. intros a A. rewrite map_length, seq_length in A. rewrite map_seq_nth by assumption. now apply H.
Qed.

(** ---- squeeze ---- *)
(** With no [dim], every framework drops the axes of size 1. *)
Theorem C108_squeeze_all {V} f (x : arr V) : exists r, squeeze f x AllDims = Ret r /\ without_axes x r (fun a => nth a (shape x) 0 = 1) /\ Forall (fun n => n <> 1) (shape r).
Proof.
  exists (take_out x (ones (shape x))). split; [now destruct f|].
  assert (W : without_axes x (take_out x (ones (shape x))) (fun a => nth a (shape x) 0 = 1)).
  { apply take_out_ok; [apply ones_only|]. intros a A. unfold ones. rewrite (nth_indep _ false (Nat.eqb 1 0)) by (now rewrite map_length). rewrite map_nth, Nat.eqb_eq. split; congruence. }
  split; [exact W|]. destruct W as (ks & _ & K & -> & _). apply Forall_forall. intros n I. apply in_map_iff in I. destruct I as (a & <- & J). now apply K in J.
Qed.
Example C108_squeeze_all_case : forall f, exists r, squeeze f (mkArr [1; 2; 1; 3] (fun i => 10 * nth 1 i 0 + nth 3 i 0)) AllDims = Ret r /\ shape r = [2; 3] /\ at_ r [1; 2] = 12.
Proof. intros f. eexists. destruct f; repeat split. Qed.

(** With axes of size 1 given, every framework drops exactly those (but TensorFlow
    reads an empty tuple as no [dim]). *)
Theorem C108_squeeze_some {V} f (x : arr V) l m : Forall2 (names_axis (length (shape x))) l m -> NoDup m -> (forall a, In a m -> nth a (shape x) 0 = 1) -> (f = TensorFlow -> l <> []) ->
  exists r, squeeze f x (DimTuple l) = Ret r /\ without_axes x r (fun a => In a m).
Proof.
  intros F N O T. pose proof (axes_ok _ _ _ F) as A. fold (rank x) in A.
  assert (M : without_axes x (take_out x (marks (rank x) m)) (fun a => In a m)).
  { apply take_out_ok; [apply marks_only; intros a La I; apply isin_In in I; auto|]. intros a La. unfold marks, rank. rewrite map_seq_nth by assumption. now rewrite isin_In. }
  assert (B : nodupb m && all_one (shape x) m = true) by (rewrite andb_true_iff, nodupb_ok, all_one_ok; auto).
  destruct f; cbn [squeeze].
  - rewrite A, B. eauto.
  - assert (A' : axes_of (axis (Nat.max 1 (rank x))) l = Some m).
    { destruct l as [|d l]; [inversion F; reflexivity|]. rewrite Nat.max_r; [exact A|]. inversion F; subst. destruct H1 as [H1 _]. unfold rank. lia. }
    rewrite A'. apply nodupb_ok in N. rewrite N. eexists. split; [reflexivity|].
    apply take_out_ok; [apply marks_only; intros a La I; apply andb_prop in I; now apply Nat.eqb_eq|].
    intros a La. unfold rank. rewrite map_seq_nth by assumption. rewrite andb_true_iff, isin_In, Nat.eqb_eq. split; [intro I; split; auto|tauto].
  - destruct l as [|d l]; [now exfalso; apply T|]. rewrite A. apply all_one_ok in O. rewrite O. eauto.
  - rewrite A, B. eauto.
Qed.
Example C108_squeeze_some_case : forall f, exists r, squeeze f (mkArr [1; 2; 1] (fun i => nth 1 i 0)) (DimTuple [0%Z; (-1)%Z]) = Ret r /\ without_axes (mkArr [1; 2; 1] (fun i => nth 1 i 0)) r (fun a => In a [0; 2]).
Proof.
  intros f. apply C108_squeeze_some; [|repeat constructor; cbn; lia| |discriminate].
  - constructor; [split; [cbn; lia|left; reflexivity]|]. constructor; [split; [cbn; lia|right; reflexivity]|constructor].
  - intros a [<-|[<-|[]]]; reflexivity.
Qed.
Theorem C108_squeeze_one {V} f (x : arr V) d a : names_axis (length (shape x)) d a -> nth a (shape x) 0 = 1 -> exists r, squeeze f x (OneDim d) = Ret r /\ without_axes x r (fun b => b = a).
Proof.
  intros N O. destruct (C108_squeeze_some f x [d] [a]) as (r & E & W); [constructor; [exact N|constructor]|constructor; [intros []|constructor]|intros b [<-|[]]; exact O|discriminate|].
  exists r. split; [destruct f; exact E|]. destruct W as (ks & S1 & K & S2 & S3). exists ks. split; [exact S1|]. split; [|split; [exact S2|exact S3]]. intros b. rewrite K. cbn. intuition congruence.
Qed.
Example C108_squeeze_one_case : forall f, exists r, squeeze f (mkArr [2; 1; 1] (fun i => nth 0 i 0)) (OneDim (-2)) = Ret r /\ without_axes (mkArr [2; 1; 1] (fun i => nth 0 i 0)) r (fun b => b = 1).
Proof. intros f. apply C108_squeeze_one; [split; [cbn; lia|right; reflexivity]|reflexivity]. Qed.
(** Whatever is given, a result has the entries of the array in their order. *)
Theorem C108_squeeze_entries {V} f (x : arr V) dim r : squeeze f x dim = Ret r -> same_entries x r.
Proof.
  assert (S0 : same_entries x (take_out x (ones (shape x)))) by (apply (take_out_ok x (ones (shape x)) (fun a => nth a (ones (shape x)) false = true)); [apply ones_only|tauto]).
  assert (S1 : forall g : nat -> bool, (forall a, a < length (shape x) -> g a = true -> nth a (shape x) 0 = 1) -> same_entries x (take_out x (map g (seq 0 (rank x))))).
  { intros g H. apply (take_out_ok x _ (fun a => nth a (map g (seq 0 (rank x))) false = true)); [now apply marks_only|tauto]. }
  assert (S2 : forall m, all_one (shape x) m = true -> same_entries x (take_out x (marks (rank x) m))).
  { intros m A. rewrite all_one_ok in A. apply S1. intros a _ I. apply isin_In in I. auto. }
  assert (H : forall l, squeeze f x (DimTuple l) = Ret r -> same_entries x r).
  { intros l. destruct f; cbn [squeeze].
    - match goal with |- context [axes_of ?q ?w] => destruct (axes_of q w) as [m|] end; [|discriminate]. destruct (nodupb m && all_one (shape x) m) eqn:B; [|discriminate]. intros [= <-]. apply andb_prop in B. now apply S2.
    - match goal with |- context [axes_of ?q ?w] => destruct (axes_of q w) as [m|] end; [|discriminate]. destruct (nodupb m); [|discriminate]. intros [= <-]. apply S1. intros a _ I. apply andb_prop in I. now apply Nat.eqb_eq.
    - destruct l as [|d l]; [intros [= <-]; exact S0|]. match goal with |- context [axes_of ?q ?w] => destruct (axes_of q w) as [m|] end; [|discriminate]. destruct (all_one (shape x) m) eqn:B; [|discriminate]. intros [= <-]. now apply S2.
    - match goal with |- context [axes_of ?q ?w] => destruct (axes_of q w) as [m|] end; [|discriminate]. destruct (nodupb m && all_one (shape x) m) eqn:B; [|discriminate]. intros [= <-]. apply andb_prop in B. now apply S2. }
  destruct dim as [|d|l]; [intro E; assert (Ret r = Ret (take_out x (ones (shape x)))) as [= ->] by (rewrite <- E; now destruct f); exact S0| |apply H].
  intro E. apply (H [d]). destruct f; exact E.
Qed.
Example C108_squeeze_entries_case : same_entries (mkArr [1; 3] (fun i => nth 1 i 0)) (mkArr [3] (fun i => nth 0 i 0)).
Proof.
  destruct (C108_squeeze_all NumPy (mkArr [1; 3] (fun i => nth 1 i 0))) as (r & E & _). pose proof (C108_squeeze_entries _ _ _ _ E) as H. injection E as <-.
  destruct H as [H1 H2]. split; [reflexivity|]. intros i j Hi Hj Q. rewrite <- (H2 i j Hi Hj Q). cbn. now destruct j.
Qed.
(** An axis of another size: refused, except by PyTorch, which returns the array. *)
Theorem C108_squeeze_other_refuted {V} (x : arr V) d a : names_axis (length (shape x)) d a -> nth a (shape x) 0 <> 1 ->
  (forall f, f <> PyTorch -> squeeze f x (OneDim d) = Raise EValue) /\ exists r, squeeze PyTorch x (OneDim d) = Ret r /\ shape r = shape x.
Proof.
  intros N O. pose proof (proj2 (axis_spec _ _ _) N) as A. assert (Z1 : Nat.eqb (nth a (shape x) 0) 1 = false) by now apply Nat.eqb_neq. split.
  - intros f F. destruct f; try congruence; cbn; unfold rank; rewrite A; cbn; now rewrite Z1.
  - cbn [squeeze axes_of]. rewrite Nat.max_r by (destruct N; unfold rank; lia). unfold rank at 1. rewrite A. replace (nodupb [a]) with true by reflexivity. eexists. split; [reflexivity|]. cbn [take_out shape].
    assert (E : map (fun a0 => isin a0 [a] && Nat.eqb (nth a0 (shape x) 0) 1) (seq 0 (rank x)) = repeat false (rank x)).
    { transitivity (map (fun _ : nat => false) (seq 0 (rank x))); [apply map_ext; intros b; cbn; destruct (Nat.eqb b a) eqn:Q; [apply Nat.eqb_eq in Q; subst; now rewrite Z1|reflexivity]|].
      generalize (rank x) as k. intro k. generalize 0 as s. induction k as [|k IH]; intros s; cbn; [reflexivity|]. now rewrite IH. }
    rewrite E. unfold rank. clear. induction (shape x) as [|n s IH]; cbn; [reflexivity|]. now rewrite IH.
Qed.
Example C108_squeeze_other_case : names_axis 2 (-1) 1 /\ nth 1 [1; 3] 0 <> 1.
Proof. split; [split; [lia|right; reflexivity]|discriminate]. Qed.
Theorem C108_squeeze_empty_tuple_refuted : exists x : arr nat, forall f, exists r, squeeze f x (DimTuple []) = Ret r /\ (shape r = shape x <-> f <> TensorFlow).
Proof. exists (mkArr [1; 2] (fun _ => 0)). intros f. destruct f; eexists; (split; [reflexivity|cbn; split; congruence]). Qed.

(** ---- diag ---- *)
Theorem C108_diag_vector {V} (zero : V) f x n : shape x = [n] -> exists r, diag zero f x = Ret r /\ diagonal_matrix zero n n (fun i => at_ x [i]) r.
Proof. intros E. exists (diag_matrix zero x n). split; [destruct f; cbn; unfold rank; rewrite E; reflexivity|]. split; reflexivity. Qed.
Theorem C108_diag_matrix {V} (zero : V) f x n m : shape x = [n; m] -> exists r, diag zero f x = Ret r /\ shape r = [Nat.min n m] /\ forall i, i < Nat.min n m -> at_ r [i] = at_ x [i; i].
Proof. intros E. exists (diag_part x n m). split; [destruct f; cbn; unfold rank; rewrite E; reflexivity|]. split; reflexivity. Qed.
Example C108_diag_matrix_case : forall f, exists r, diag 0 f (mkArr [3; 2] (fun i => 10 * nth 0 i 0 + nth 1 i 0)) = Ret r /\ shape r = [2] /\ at_ r [1] = 11.
Proof.
  intros f. destruct (C108_diag_matrix 0 f (mkArr [3; 2] (fun i => 10 * nth 0 i 0 + nth 1 i 0)) 3 2 eq_refl) as (r & E & Sh & P). exists r. split; [exact E|]. split; [exact Sh|]. rewrite P by (cbn; lia). reflexivity.
Qed.
Theorem C108_diag_refuses {V} (zero : V) f x : length (shape x) <> 1 -> length (shape x) <> 2 -> diag zero f x = Raise EValue.
Proof.
  intros A B. apply Nat.eqb_neq in A, B. destruct f; cbn; unfold rank; rewrite ?A, ?B; try reflexivity; (destruct (shape x) as [|? [|? [|? ?]]]; [reflexivity|discriminate|discriminate|reflexivity]).
Qed.
Example C108_diag_refuses_case : forall f, diag 0 f (mkArr [2; 2; 2] (fun _ => 1)) = Raise EValue.
Proof. intros f. apply C108_diag_refuses; discriminate. Qed.
(** [diag] of [diag] of a vector is the vector. *)
Theorem C108_diag_twice {V} (zero : V) f x n : shape x = [n] -> exists M r, diag zero f x = Ret M /\ diag zero f M = Ret r /\ same x r.
Proof.
  intros E. destruct (C108_diag_vector zero f x n E) as (M & E1 & S1 & D). destruct (C108_diag_matrix zero f M n n S1) as (r & E2 & S2 & P).
  exists M, r. split; [exact E1|]. split; [exact E2|]. rewrite Nat.min_id in *. split; [congruence|]. intros i H. rewrite E in H. inversion H as [|k ? i' ? H1 H2]; subst. inversion H2; subst.
  rewrite P, D by assumption. now rewrite Nat.eqb_refl.
Qed.
Example C108_diag_case : forall f, exists r, diag 0 f (mkArr [2] (fun i => 5 + nth 0 i 0)) = Ret r /\ diagonal_matrix 0 2 2 (fun i => 5 + i) r.
Proof. intros f. apply (C108_diag_vector 0 f (mkArr [2] (fun i => 5 + nth 0 i 0)) 2 eq_refl). Qed.

(** ---- eye_like ---- *)
(** For matrices: an identity matrix of the same shape. *)
Theorem C108_eye_like {V} (zero one : V) f x n m : shape x = [n; m] -> exists r, eye_like zero one f x = Ret r /\ diagonal_matrix zero n m (fun _ => one) r.
Proof. intros E. unfold eye_like. rewrite E. cbn. eexists. split; [reflexivity|]. split; reflexivity. Qed.
Example C108_eye_like_case : forall f, exists r, eye_like 0 1 f (mkArr [2; 3] (fun _ => 7)) = Ret r /\ diagonal_matrix 0 2 3 (fun _ => 1) r.
Proof. intros f. apply (C108_eye_like 0 1 f (mkArr [2; 3] (fun _ => 7)) 2 3 eq_refl). Qed.
(** For others the shape is not the array's: *)
Theorem C108_eye_like_shape_refuted {V} (zero one : V) f x :
  (shape x = [] -> eye_like zero one f x = Raise EType) /\
  (forall n, shape x = [n] -> exists r, eye_like zero one f x = Ret r /\ shape r = [n; n]) /\
  (forall b s n m, shape x = b :: s ++ [n; m] -> exists r, eye_like zero one f x = Ret r /\ shape r = [n; m]).
Proof.
  unfold eye_like. split; [now intros ->|]. split; [intros n ->; cbn; eauto|]. intros b s n m ->. replace (last_two (b :: s ++ [n; m])) with [n; m]; [cbn; eauto|].
  unfold last_two. rewrite app_comm_cons, app_length. replace (length (b :: s) + length [n; m] - 2) with (length (b :: s)) by (cbn; lia). rewrite skipn_app, Nat.sub_diag, skipn_all. reflexivity.
Qed.
Example C108_eye_like_shape_case : forall f, exists r, eye_like 0 1 f (mkArr [4; 2; 2] (fun _ => 7)) = Ret r /\ shape r = [2; 2].
Proof. intros f. now apply (C108_eye_like_shape_refuted 0 1 f (mkArr [4; 2; 2] (fun _ => 7))) with (b := 4) (s := []). Qed.

(** ---- stack ---- *)
Lemma insert_at_app {A} a (j : A) : forall l, a <= length l -> insert_at a j l = firstn a l ++ j :: skipn a l.
Proof. induction a as [|a IH]; intros [|x l] H; cbn in *; try reflexivity; try lia. now rewrite IH by lia. Qed.
Lemma shape_eqb_ok s t : shape_eqb s t = true <-> s = t.
Proof. unfold shape_eqb. destruct (list_eq_dec Nat.eq_dec s t); split; congruence. Qed.
Lemma nth_insert a k : forall i, a <= length i -> nth a (insert_at a k i) 0 = k.
Proof. induction a as [|a IH]; intros [|x i] H; cbn in *; try reflexivity; try lia. now apply IH; lia. Qed.
(** Arrays of one shape stacked along axis [a] of the result: a new axis with one place
    per array, and there the array's entries. *)
Theorem C108_stack {V} f (xs : list (arr V)) s dim a : xs <> [] -> (forall x, In x xs -> shape x = s) -> names_axis (S (length s)) dim a ->
  exists r, stack f xs dim = Ret r /\ shape r = with_coordinate a (length xs) s /\
    forall k x i, nth_error xs k = Some x -> valid s i -> at_ r (with_coordinate a k i) = at_ x i.
Proof.
  intros N H A. destruct xs as [|y xs]; [congruence|]. pose proof (H y (or_introl eq_refl)) as Hy. cbn [stack].
  assert (F : forallb (fun z => shape_eqb (shape z) (shape y)) (y :: xs) = true) by (apply forallb_forall; intros z I; apply shape_eqb_ok; rewrite (H z I); congruence).
  rewrite F. pose proof A as A'. apply axis_spec in A'. unfold rank. rewrite Hy, A'. eexists. split; [reflexivity|]. destruct A as [A _]. split; [cbn [shape]; apply insert_at_app; lia|].
  intros k x i K I. cbn [at_]. pose proof (valid_length _ _ I) as L. unfold with_coordinate. rewrite <- insert_at_app by lia. rewrite nth_insert, insert_remove by lia. now rewrite (nth_error_nth _ _ y K).
Qed.
Theorem C108_stack_refuses {V} f (xs : list (arr V)) dim : xs = [] \/ (exists x y, In x xs /\ In y xs /\ shape x <> shape y) -> stack f xs dim = Raise EValue.
Proof.
  intros [-> | (x & y & I & J & N)]; [reflexivity|]. destruct xs as [|z xs]; [destruct I|]. cbn [stack].
  destruct (forallb (fun w => shape_eqb (shape w) (shape z)) (z :: xs)) eqn:F; [|reflexivity]. rewrite forallb_forall in F.
  exfalso. apply N. pose proof (F x I) as P. pose proof (F y J) as Q. apply shape_eqb_ok in P, Q. congruence.
Qed.
Example C108_stack_refuses_case : forall f, stack f [mkArr [2] (fun _ => 1); mkArr [3] (fun _ => 1)] 0 = Raise EValue.
Proof. intros f. apply C108_stack_refuses. right. do 2 eexists. split; [left; reflexivity|]. split; [right; left; reflexivity|discriminate]. Qed.
(** Reducing a stack along the axis it was stacked on works entry by entry on the arrays. *)
Theorem C108_reduce_stack {V} red empty_ok f (xs : list (arr V)) s dim a : xs <> [] -> (forall x, In x xs -> shape x = s) -> names_axis (S (length s)) dim a ->
  exists r t, stack f xs dim = Ret r /\ reduce red empty_ok f r dim false = Ret t /\ shape t = s /\ forall i, valid s i -> at_ t i = red (map (fun x => at_ x i) xs).
Proof.
  intros N H A. destruct (C108_stack f xs s dim a N H A) as (r & E & S1 & P). exists r. pose proof A as [A1 _].
  assert (L : length (shape r) = S (length s)) by (rewrite S1; unfold with_coordinate; rewrite app_length; cbn; rewrite firstn_length, skipn_length; lia).
  assert (NA : nth a (shape r) 0 = length xs) by (rewrite S1; unfold with_coordinate; rewrite <- insert_at_app by lia; apply nth_insert; lia).
  unfold reduce. unfold rank. rewrite L. pose proof (proj2 (axis_spec _ _ _) A) as ->. rewrite NA.
  assert (Z0 : Nat.eqb (length xs) 0 && negb empty_ok = false) by (destruct xs; [congruence|reflexivity]). rewrite Z0. eexists. split; [exact E|]. split; [reflexivity|]. cbn [shape at_].
  assert (RM : remove_at a (shape r) = s) by (rewrite S1; unfold with_coordinate; rewrite <- insert_at_app by lia; apply insert_remove; lia).
  split; [exact RM|]. intros i I. f_equal. pose proof (valid_length _ _ I) as Li.
  apply (nth_ext _ _ (at_ r (insert_at a 0 i)) (at_ (mkArr s (fun _ => at_ r (insert_at a 0 i))) i)); [now rewrite !map_length, seq_length|].
  intros k K. rewrite map_length, seq_length in K. rewrite map_seq_nth by assumption. destruct (nth_error xs k) as [x|] eqn:X; [|apply nth_error_None in X; lia].
  rewrite (map_nth (fun x => at_ x i) xs (mkArr s (fun _ => at_ r (insert_at a 0 i))) k), (nth_error_nth _ _ _ X).
  rewrite insert_at_app by lia. now apply P.
Qed.
Example C108_stack_case : forall f, exists r t, stack f [mkArr [2] (fun i => 1 + nth 0 i 0); mkArr [2] (fun i => 5 + nth 0 i 0); mkArr [2] (fun _ => 3)] 0 = Ret r /\
  reduce (fold_right Nat.add 0) true f r 0 false = Ret t /\ shape t = [2] /\ forall i, valid [2] i -> at_ t i = fold_right Nat.add 0 [1 + nth 0 i 0; 5 + nth 0 i 0; 3].
Proof.
  intros f. apply (C108_reduce_stack (fold_right Nat.add 0) true f [mkArr [2] (fun i => 1 + nth 0 i 0); mkArr [2] (fun i => 5 + nth 0 i 0); mkArr [2] (fun _ => 3)] [2] 0 0); [discriminate| |split; [lia|left; reflexivity]].
  intros x [<-|[<-|[<-|[]]]]; reflexivity.
Qed.

(** ---- set_item ---- *)
Lemma inside_ok s : forall key, Nat.eqb (length key) (length s) && forallb (fun p => Nat.ltb (fst p) (snd p)) (combine key s) = true <-> valid s key.
Proof.
  induction s as [|n s IH]; intros [|k key]; cbn; try (split; [discriminate|intro H; inversion H]); [split; constructor|]. split.
  - intro H. apply andb_prop in H. destruct H as [H1 H2]. apply andb_prop in H2. destruct H2 as [H2 H3]. apply Nat.ltb_lt in H2. constructor; [exact H2|]. apply IH. apply andb_true_intro. auto.
  - intro H. inversion H as [|? ? ? ? H1 H2]; subst. apply IH in H2. apply andb_prop in H2. destruct H2 as [H2 H3]. apply Nat.ltb_lt in H1. rewrite H1, H2, H3. reflexivity.
Qed.
(** NumPy and PyTorch write the entry, and nothing else; *)
Theorem C108_set_item {V} f (x : arr V) key v : f = NumPy \/ f = PyTorch -> valid (shape x) key ->
  exists y, set_item f true x key v = Wrote y /\ shape y = shape x /\ at_ y key = v /\ forall i, i <> key -> at_ y i = at_ x i.
Proof.
  intros F H. apply inside_ok in H. exists (mkArr (shape x) (fun i => if shape_eqb i key then v else at_ x i)). split; [destruct F as [-> | ->]; cbn; unfold rank; now rewrite H|]. split; [reflexivity|]. cbn. split.
  - now rewrite (proj2 (shape_eqb_ok key key) eq_refl).
  - intros i N. destruct (shape_eqb i key) eqn:E; [apply shape_eqb_ok in E; congruence|reflexivity].
Qed.
Example C108_set_item_case : exists y, set_item PyTorch true (mkArr [2; 2] (fun _ => 0)) [1; 0] 9 = Wrote y /\ shape y = [2; 2] /\ at_ y [1; 0] = 9 /\ forall i, i <> [1; 0] -> at_ y i = 0.
Proof. apply (C108_set_item PyTorch (mkArr [2; 2] (fun _ => 0)) [1; 0] 9); [now right|]. repeat constructor. Qed.
(** an index outside is refused, and TensorFlow and JAX always refuse. *)
Theorem C108_set_item_refuses {V} f ok (x : arr V) key v : ~ valid (shape x) key \/ f = TensorFlow \/ f = Jax -> forall y, set_item f ok x key v <> Wrote y.
Proof.
  intros H y. destruct f; cbn; try (destruct ok; discriminate).
  - destruct H as [H|[H|H]]; try discriminate. destruct (_ && _) eqn:E; [|discriminate]. now apply inside_ok in E.
  - destruct ok; [|discriminate]. destruct H as [H|[H|H]]; try discriminate. destruct (_ && _) eqn:E; [|discriminate]. now apply inside_ok in E.
Qed.
Example C108_set_item_refuses_case : forall y, set_item NumPy true (mkArr [2] (fun _ => 1)) [2] 5 <> Wrote y.
Proof. apply C108_set_item_refuses. left. intro H. inversion H; lia. Qed.

Print Assumptions C108_squeeze_all.
Print Assumptions C108_squeeze_some.
Print Assumptions C108_squeeze_one.
Print Assumptions C108_squeeze_entries.
Print Assumptions C108_squeeze_other_refuted.
Print Assumptions C108_squeeze_empty_tuple_refuted.
Print Assumptions C108_diag_vector.
Print Assumptions C108_diag_matrix.
Print Assumptions C108_diag_refuses.
Print Assumptions C108_diag_twice.
Print Assumptions C108_eye_like.
Print Assumptions C108_eye_like_shape_refuted.
Print Assumptions C108_stack.
Print Assumptions C108_stack_refuses.
Print Assumptions C108_reduce_stack.
Print Assumptions C108_set_item.
Print Assumptions C108_set_item_refuses.
