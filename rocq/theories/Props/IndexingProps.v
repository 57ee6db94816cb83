(** C112: length, iteration, indices and slices of arrays. *)
From Coq Require Import List Bool Arith ZArith Lia.
From Verif.Model Require Import Interop ArrayFns ArrayFns2 Indexing.
From Verif.Spec Require Import ArrayFnsSpec ArrayFns2Spec.
From Verif.Props Require Import ArrayFns2Props.
Import ListNotations.

Lemma axis_nonneg n k : k < n -> axis n (Z.of_nat k) = Some k.
Proof. intro H. unfold axis. replace ((0 <=? Z.of_nat k)%Z && (Z.of_nat k <? Z.of_nat n)%Z) with true by (symmetry; apply andb_true_intro; split; [apply Z.leb_le|apply Z.ltb_lt]; lia). now rewrite Nat2Z.id. Qed.
Lemma axis_neg n k : 1 <= k <= n -> axis n (- Z.of_nat k) = Some (n - k).
Proof.
  intro H. unfold axis. replace (0 <=? - Z.of_nat k)%Z with false by (symmetry; apply Z.leb_gt; lia). cbn [andb].
  replace ((- Z.of_nat n <=? - Z.of_nat k)%Z && (- Z.of_nat k <? 0)%Z) with true by (symmetry; apply andb_true_intro; split; [apply Z.leb_le|apply Z.ltb_lt]; lia). f_equal. lia.
Qed.
Lemma axis_out n k : (k < - Z.of_nat n \/ Z.of_nat n <= k)%Z -> axis n k = None.
Proof.
  intro H. unfold axis. destruct (Z.leb_spec 0 k), (Z.ltb_spec k (Z.of_nat n)); cbn [andb]; try (exfalso; lia); destruct (Z.leb_spec (- Z.of_nat n) k), (Z.ltb_spec k 0); cbn [andb]; try reflexivity; exfalso; lia.
Qed.
Lemma nth_error_parts {V} (x : arr V) n k : k < n -> nth_error (map (part x) (seq 0 n)) k = Some (part x k).
Proof. intro H. rewrite nth_error_map, (nth_error_nth' _ 0) by now rewrite seq_length. now rewrite seq_nth. Qed.

(** Length, iteration and indices agree: [len] counts what iterating gives, [x[k]] is
    the [k]-th of it, [x[-k]] the [k]-th from the end. *)
Theorem C112_sequence {V} f (x : arr V) n s : shape x = n :: s ->
  len (Tensor f x) = Ret n
  /\ exists items, iter (Tensor f x) = Ret items /\ length items = n
     /\ (forall k, k < n -> exists y, nth_error items k = Some y /\ getitem (Tensor f x) (At (Z.of_nat k)) = Ret (Tensor f y)
           /\ getitem (Tensor f x) (At (- Z.of_nat (n - k))) = Ret (Tensor f y)
           /\ shape y = s /\ forall i, at_ y i = at_ x (k :: i)).
Proof.
  intro S. split; [cbn; now rewrite S|]. eexists. split; [cbn; rewrite S; reflexivity|]. split; [now rewrite map_length, seq_length|].
  intros k Hk. exists (part x k). split; [now apply nth_error_parts|]. cbn [getitem]. unfold index. rewrite S. split; [now rewrite axis_nonneg|]. split; [rewrite axis_neg by lia; now replace (n - (n - k)) with k by lia|].
  split; [cbn; now rewrite S|reflexivity].
Qed.
Example C112_sequence_case : exists y, getitem (Tensor NumPy (mkArr [2; 3] (fun i => 10 * nth 0 i 0 + nth 1 i 0))) (At (-1)) = Ret (Tensor NumPy y) /\ shape y = [3] /\ at_ y [2] = 12.
Proof. eexists. split; [reflexivity|]. split; reflexivity. Qed.

(** Numbers and arrays without axes have no length, entries nor iterator. *)
Theorem C112_scalars {V} (v : V) f (x : arr V) k :
  len (Scalar v) = Raise EType /\ iter (Scalar v) = Raise EType /\ getitem (Scalar v) k = Raise EType
  /\ (shape x = [] -> len (Tensor f x) = Raise EType /\ iter (Tensor f x) = Raise EType /\ exists e, getitem (Tensor f x) k = Raise e).
Proof. repeat split; try reflexivity; try (cbn; now rewrite H). cbn. unfold index. rewrite H. now exists EOther. Qed.
Example C112_scalars_case : len (Tensor PyTorch (mkArr [] (fun _ => 1))) = Raise EType. Proof. reflexivity. Qed.

(** An index outside the axis is refused by NumPy, PyTorch and TensorFlow, and by all
    when the axis is empty, *)
Theorem C112_out_of_range {V} f (x : arr V) n s k : shape x = n :: s -> f <> Jax \/ n = 0 -> (k < - Z.of_nat n \/ Z.of_nat n <= k)%Z ->
  exists e, getitem (Tensor f x) (At k) = Raise e.
Proof. intros S F K. cbn [getitem]. unfold index. rewrite S, axis_out by exact K. destruct F as [F| ->]; [|destruct f; eexists; reflexivity]. destruct f; try (eexists; reflexivity). now destruct F. Qed.
Example C112_out_of_range_case : exists e, getitem (Tensor TensorFlow (mkArr [2] (fun i => nth 0 i 0))) (At 2) = Raise e. Proof. eexists. reflexivity. Qed.
(** ... and JAX reads the first or last entry instead. *)
Theorem C112_out_of_range_refuted {V} (x : arr V) n s k : shape x = S n :: s ->
  ((Z.of_nat (S n) <= k)%Z -> getitem (Tensor Jax x) (At k) = getitem (Tensor Jax x) (At (-1)))
  /\ ((k < - Z.of_nat (S n))%Z -> getitem (Tensor Jax x) (At k) = getitem (Tensor Jax x) (At 0)).
Proof.
  intro E. cbn [getitem]. unfold index. rewrite E. split; intro K; rewrite (axis_out (S n) k) by lia.
  - change (-1)%Z with (- Z.of_nat 1)%Z. rewrite axis_neg by lia. unfold clamp. destruct (Z.ltb_spec k 0); [lia|]. do 3 f_equal. lia.
  - change 0%Z with (Z.of_nat 0) at 1. rewrite axis_nonneg by lia. unfold clamp. destruct (Z.ltb_spec k 0); [|lia]. do 3 f_equal. lia.
Qed.
Example C112_out_of_range_refuted_case : exists y, getitem (Tensor Jax (mkArr [3] (fun i => nth 0 i 0))) (At 7) = Ret (Tensor Jax y) /\ at_ y [] = 2. Proof. eexists. split; reflexivity. Qed.

(** Stacking what iterating gives puts the array together again. *)
Theorem C112_stack_of_items {V} f (x : arr V) n s : shape x = S n :: s ->
  exists items y, iter (Tensor f x) = Ret items /\ stack f items 0 = Ret y /\ shape y = shape x /\ forall k i, k < S n -> valid s i -> at_ y (k :: i) = at_ x (k :: i).
Proof.
  intro E. destruct (C108_stack f (map (part x) (seq 0 (S n))) s 0%Z 0) as (y & St & Sh & A); [discriminate| |split; lia|].
  - intros z I. apply in_map_iff in I. destruct I as (k & <- & _). cbn. now rewrite E.
  - exists (map (part x) (seq 0 (S n))), y. split; [cbn [iter]; now rewrite E|]. split; [exact St|]. split; [rewrite Sh, E; unfold with_coordinate; cbn [firstn skipn app]; now rewrite map_length, seq_length|].
    intros k i K I. change (k :: i) with (with_coordinate 0 k i). rewrite (A k (part x k) i); [reflexivity|now apply nth_error_parts|exact I].
Qed.
Example C112_stack_case : exists y, stack PyTorch (map (part (mkArr [2; 2] (fun i => 10 * nth 0 i 0 + nth 1 i 0))) (seq 0 2)) 0 = Ret y /\ at_ y [1; 0] = 10.
Proof. eexists. split; reflexivity. Qed.

(** A slice [x[a:b]] has the entries from [a] up to [b], both counted from the end when
    negative; too large bounds are cut; [x[:k]] and [x[k:]] split the array. *)
Theorem C112_slice {V} f (x : arr V) n s a b : shape x = n :: s -> a <= b <= n ->
  exists y, getitem (Tensor f x) (Slice (Some (Z.of_nat a)) (Some (Z.of_nat b))) = Ret (Tensor f y)
  /\ shape y = (b - a) :: s /\ (forall k i, k < b - a -> at_ y (k :: i) = at_ x ((a + k) :: i))
  /\ (0 < a -> b < n -> getitem (Tensor f x) (Slice (Some (Z.of_nat a - Z.of_nat n)%Z) (Some (Z.of_nat b - Z.of_nat n)%Z)) = Ret (Tensor f y))
  /\ (forall over, getitem (Tensor f x) (Slice (Some (Z.of_nat a)) (Some (Z.of_nat n + Z.of_nat over)%Z)) = getitem (Tensor f x) (Slice (Some (Z.of_nat a)) None)).
Proof.
  intros E H. assert (P : forall c, c <= n -> bound n (Z.of_nat c) = c) by (intros c L; unfold bound; destruct (Z.ltb_spec (Z.of_nat c) 0); lia).
  assert (M : forall c, c < n -> bound n (Z.of_nat c - Z.of_nat n)%Z = c) by (intros c L; unfold bound; destruct (Z.ltb_spec (Z.of_nat c - Z.of_nat n) 0); lia).
  assert (O : forall c, bound n (Z.of_nat n + Z.of_nat c)%Z = n) by (intros c; unfold bound; destruct (Z.ltb_spec (Z.of_nat n + Z.of_nat c) 0); lia).
  exists (mkArr ((b - a) :: tl (shape x)) (fun i => at_ x ((a + hd 0 i) :: tl i))). cbn [getitem]. unfold index. rewrite E. unfold slice.
  split; [rewrite !P by lia; now rewrite E|]. split; [cbn; now rewrite ?E|]. split; [intros k i _; reflexivity|]. split.
  - intros Ha Hb. rewrite !M by lia. now rewrite E.
  - intro c. now rewrite O.
Qed.
Example C112_slice_case : exists y, getitem (Tensor NumPy (mkArr [4] (fun i => nth 0 i 0))) (Slice (Some (-3)%Z) (Some (-1)%Z)) = Ret (Tensor NumPy y) /\ shape y = [2] /\ at_ y [1] = 2.
Proof. eexists. split; [reflexivity|]. split; reflexivity. Qed.
Theorem C112_split {V} f (x : arr V) n s k : shape x = n :: s -> k <= n ->
  exists y z ys zs items, getitem (Tensor f x) (Slice None (Some (Z.of_nat k))) = Ret (Tensor f y) /\ getitem (Tensor f x) (Slice (Some (Z.of_nat k)) None) = Ret (Tensor f z)
  /\ iter (Tensor f y) = Ret ys /\ iter (Tensor f z) = Ret zs /\ iter (Tensor f x) = Ret items
  /\ length (ys ++ zs) = length items /\ forall j p q i, nth_error (ys ++ zs) j = Some p -> nth_error items j = Some q -> shape p = shape q /\ at_ p i = at_ q i.
Proof.
  intros E H. assert (P : bound n (Z.of_nat k) = k) by (unfold bound; destruct (Z.ltb_spec (Z.of_nat k) 0); lia).
  cbn [getitem iter]. unfold index, slice. rewrite E, P. do 5 eexists. do 2 (split; [reflexivity|]). cbn [shape]. do 3 (split; [reflexivity|]).
  rewrite app_length, !map_length, !seq_length. split; [lia|]. intros j p q i A B.
  assert (Hj : j < n) by (assert (L : j < length (map (part x) (seq 0 n))) by (apply nth_error_Some; congruence); now rewrite map_length, seq_length in L).
  rewrite nth_error_parts in B by exact Hj. injection B as <-. rewrite Nat.sub_0_r in A.
  destruct (Nat.lt_ge_cases j k).
  - rewrite nth_error_app1 in A by (now rewrite map_length, seq_length). rewrite nth_error_parts in A by assumption. injection A as <-. split; [cbn; now rewrite ?E|reflexivity].
  - rewrite nth_error_app2 in A by (now rewrite map_length, seq_length). rewrite map_length, seq_length in A. rewrite nth_error_parts in A by lia. injection A as <-. split; [cbn; now rewrite ?E|]. cbn [part at_ hd tl]. now replace (k + (j - k)) with j by lia.
Qed.
Example C112_split_case : iter (Tensor NumPy (mkArr [0; 2] (fun _ => 1))) = Ret []. Proof. reflexivity. Qed.

Print Assumptions C112_sequence.
Print Assumptions C112_scalars.
Print Assumptions C112_out_of_range.
Print Assumptions C112_out_of_range_refuted.
Print Assumptions C112_stack_of_items.
Print Assumptions C112_slice.
Print Assumptions C112_split.
