(** C107: random arrays and random samples. *)
From Coq Require Import List Bool Arith ZArith Reals Lia Lra Psatz Permutation Sorted.
From Verif.Model Require Import Interop Rng RandArrays.
From Verif.Spec Require Import RandArraysSpec.
Import ListNotations.

Section C107.
  Context {G A V : Type}.
  Variables (np_draw torch_draw jax_draw : nat -> nat -> bool -> G -> list nat * G) (tf_ints : nat -> nat -> G -> list nat * G) (tf_scores : nat -> G -> list V * G).
  Variables (leb : V -> V -> bool) (d : V).
  Notation choose := (@choice G A V np_draw torch_draw jax_draw tf_ints tf_scores leb d).
  Hypothesis NP : samples_positions np_draw.
  Hypothesis TO : samples_positions torch_draw.
  Hypothesis JX : samples_positions jax_draw.
  Hypothesis TI : forall n size g, 0 < n -> positions n size true (fst (tf_ints n size g)).
  Hypothesis TS : forall n g, length (fst (tf_scores n g)) = n.

  Lemma insert_perm s i l : Permutation (insert_score leb s i l) (i :: l).
  Proof. induction l as [|j l IH]; cbn; auto. destruct (leb (s j) (s i)); auto. rewrite IH. apply perm_swap. Qed.
  Lemma by_score_perm s n : Permutation (by_score leb s n) (seq 0 n).
  Proof. unfold by_score. induction (seq 0 n) as [|i l IH]; cbn; auto. rewrite insert_perm. now constructor. Qed.
  Lemma top_k_positions sc k : k <= length sc -> positions (length sc) k false (top_k leb d sc k).
  Proof.
    intros K. unfold top_k. set (q := by_score leb (fun i => nth i sc d) (length sc)). assert (P : Permutation q (seq 0 (length sc))) by apply by_score_perm.
    split; [|split].
    - rewrite firstn_length, (Permutation_length P), seq_length. lia.
    - intros i I. assert (I' : In i q) by (rewrite <- (firstn_skipn k q); apply in_or_app; now left). apply (Permutation_in i P), in_seq in I'. lia.
    - intros _. assert (N : NoDup q) by (apply (Permutation_NoDup (Permutation_sym P)), seq_NoDup). rewrite <- (firstn_skipn k q) in N.
      clear - N. induction (firstn k q) as [|x l IH]; [constructor|]. cbn in N. inversion N; subst. constructor; [|now apply IH]. intros I. apply H1, in_or_app. now left.
  Qed.
  Lemma rows_at_listed (l : list A) idx : (forall i, In i idx -> i < length l) -> rows_listed l idx (rows_at l idx).
  Proof.
    unfold rows_listed, rows_at. induction idx as [|i idx IH]; intros H; [constructor|]. cbn. destruct (nth_error l i) as [a|] eqn:E.
    - cbn. constructor; auto. apply IH. intros; apply H; now right.
    - apply nth_error_None in E. specialize (H i (or_introl eq_refl)). lia.
  Qed.
  Lemma sampled (l : list A) size replace idx : positions (length l) size replace idx -> sample_of l size replace (rows_at l idx).
  Proof. intros P. exists idx. split; auto. apply rows_at_listed. apply P. Qed.

  (** Whatever the framework and the state of its generator: [size] rows of the
      array, at different positions unless drawn with replacement. *)
  Theorem C107_choice fw (l : list A) size replace g : l <> [] -> 1 <= size -> (replace = false -> size <= length l) ->
    exists out g', choose fw (RowsOf l) (Z.of_nat size) replace g = Ret (Picked out, g') /\ sample_of l size replace out.
  Proof.
    intros NE S1 SZ. assert (LP : 0 < length l) by (destruct l; [congruence|cbn; lia]).
    assert (LB : negb replace && (Z.of_nat (length l) <? Z.of_nat size)%Z = false) by (destruct replace; cbn; auto; apply Z.ltb_ge; specialize (SZ eq_refl); lia).
    assert (L0 : (Z.of_nat size <? 0)%Z = false) by (apply Z.ltb_ge; lia). assert (L1 : (Z.of_nat size <=? 0)%Z = false) by (apply Z.leb_gt; lia).
    assert (LN : (length l =? 0) = false) by (apply Nat.eqb_neq; lia). assert (LZ : (Z.of_nat (length l) <=? 0)%Z = false) by (apply Z.leb_gt; lia).
    destruct fw; cbn [choice rows_of obind]; unfold np_choice; rewrite ?L0, ?L1, ?LN, ?LZ, ?LB; cbn [andb orb obind]; rewrite ?Nat2Z.id.
    - eexists. eexists. split; [reflexivity|]. apply sampled, NP; auto.
    - eexists. eexists. split; [reflexivity|]. apply sampled, TO; auto.
    - destruct replace; [eexists; eexists; split; [reflexivity|]; apply sampled, TI; auto|].
      destruct (Z.ltb_spec (Z.of_nat (length l)) (Z.of_nat size)) as [C|_]; [specialize (SZ eq_refl); lia|].
      eexists. eexists. split; [reflexivity|]. apply sampled. rewrite <- (TS (length l) g) at 1. apply top_k_positions. rewrite TS. auto.
    - eexists. eexists. split; [reflexivity|]. apply sampled, JX; auto.
  Qed.
  (** All rows without replacement: a shuffle. *)
  Theorem C107_shuffle fw (l : list A) g : l <> [] ->
    exists out g', choose fw (RowsOf l) (Z.of_nat (length l)) false g = Ret (Picked out, g') /\ Permutation out l.
  Proof.
    intros NE. assert (LP : 1 <= length l) by (destruct l; [congruence|cbn; lia]).
    destruct (C107_choice fw l (length l) false g NE LP ltac:(auto)) as (out & g' & E & idx & (L & B & N) & R). exists out, g'. split; [exact E|].
    specialize (N eq_refl). assert (P : Permutation idx (seq 0 (length l))).
    { apply NoDup_Permutation_bis; [exact N|rewrite seq_length; lia|]. intros i I. apply in_seq. specialize (B i I). lia. }
    assert (H : forall idx out, rows_listed l idx out -> out = rows_at l idx).
    { clear. induction 1 as [|i a idx out E _ IH]; [reflexivity|]. cbn. rewrite E. cbn. now f_equal. }
    rewrite (H _ _ R). transitivity (rows_at l (seq 0 (length l))).
    - clear - P. unfold rows_at. induction P as [|x q q' P IH|x y q|q q' q'' P1 IH1 P2 IH2]; cbn; auto; [now apply Permutation_app_head|rewrite !app_assoc; apply Permutation_app_tail, Permutation_app_comm|now transitivity (flat_map (fun i => match nth_error l i with Some a => [a] | None => [] end) q')].
    - assert (Q : forall pre q : list A, rows_at (pre ++ q) (seq (length pre) (length q)) = q).
      { clear. intros pre q. revert pre. induction q as [|a q IH]; intros pre; [reflexivity|]. cbn. rewrite nth_error_app2, Nat.sub_diag by lia. cbn. f_equal.
        specialize (IH (pre ++ [a])). rewrite app_length, Nat.add_comm in IH. cbn in IH. rewrite <- app_assoc in IH. exact IH. }
      specialize (Q [] l). cbn [app length] in Q. now rewrite Q.
  Qed.
  (** More rows than there are, without replacement: refused by every framework. *)
  Theorem C107_choice_too_many fw (l : list A) size g : (Z.of_nat (length l) < size)%Z -> exists e, choose fw (RowsOf l) size false g = Raise e.
  Proof.
    intros H. assert (B : (Z.of_nat (length l) <? size)%Z = true) by now apply Z.ltb_lt.
    destruct fw; cbn [choice rows_of obind]; unfold np_choice; rewrite ?B; cbn [negb andb]; rewrite ?orb_true_r.
    - destruct (size <? 0)%Z; [eexists; reflexivity|]. destruct ((Z.of_nat (length l) <=? 0)%Z && negb (size =? 0)%Z); eexists; reflexivity.
    - eexists; reflexivity.
    - destruct (size <? 0)%Z; eexists; reflexivity.
    - destruct (size <? 0)%Z; [eexists; reflexivity|]. eexists; reflexivity.
  Qed.
End C107.

(** TensorFlow's rows without replacement are those with the largest scores. *)
Section Top.
  Context {V : Type}.
  Variables (leb : V -> V -> bool) (s : nat -> V).
  Hypothesis T : forall a b, leb a b = true \/ leb b a = true.
  Hypothesis TR : forall a b c, leb a b = true -> leb b c = true -> leb a c = true.
  Notation above := (fun x y => leb (s y) (s x) = true).
  Lemma insert_sorted i l : StronglySorted above l -> StronglySorted above (insert_score leb s i l).
  Proof.
    induction 1 as [|x l S IH F]; cbn; [repeat constructor|]. destruct (leb (s x) (s i)) eqn:E.
    - constructor; [now constructor|]. constructor; [exact E|]. rewrite Forall_forall in *. intros y I. eapply TR; eauto.
    - constructor; [exact IH|]. rewrite Forall_forall in *. intros y I. apply (Permutation_in y (insert_perm leb s i l)) in I. destruct I as [<-|I]; [|now apply F].
      destruct (T (s i) (s x)) as [Q|Q]; [exact Q|congruence].
  Qed.
  Lemma by_score_sorted n : StronglySorted above (by_score leb s n).
  Proof. unfold by_score. induction (seq 0 n) as [|x l IH]; cbn; [constructor|]. now apply insert_sorted. Qed.
  Lemma sorted_split k l : StronglySorted above l -> forall x y, In x (firstn k l) -> In y (skipn k l) -> leb (s y) (s x) = true.
  Proof.
    intros S. revert k. induction S as [|a l S IH F]; intros [|k] x y I J; cbn in *; try tauto. destruct I as [<-|I]; [|now apply (IH k)].
    rewrite Forall_forall in F. apply F. rewrite <- (firstn_skipn k l). apply in_or_app. now right.
  Qed.
End Top.
Theorem C107_top_scores {V} (leb : V -> V -> bool) d sc k :
  (forall a b, leb a b = true \/ leb b a = true) -> (forall a b c, leb a b = true -> leb b c = true -> leb a c = true) ->
  forall i j, In i (top_k leb d sc k) -> j < length sc -> ~ In j (top_k leb d sc k) -> leb (nth j sc d) (nth i sc d) = true.
Proof.
  intros T TR i j I J NJ. unfold top_k in *. apply (sorted_split leb (fun i => nth i sc d) k _ (by_score_sorted leb _ T TR (length sc)) i j I).
  assert (JQ : In j (by_score leb (fun i => nth i sc d) (length sc))) by (apply (Permutation_in j (Permutation_sym (by_score_perm leb _ _))), in_seq; lia).
  rewrite <- (firstn_skipn k (by_score leb (fun i => nth i sc d) (length sc))) in JQ. apply in_app_or in JQ. tauto.
Qed.

(** ---- generators that keep their promises: the state is a position to start at ---- *)
Definition round (n size : nat) (replace : bool) (g : nat) : list nat * nat :=
  (map (fun i => (i + (if replace then g else 0)) mod n) (seq 0 size), S g).
Lemma round_ok : samples_positions round.
Proof.
  intros n size replace g A B. unfold round, positions. cbn [fst]. rewrite map_length, seq_length. split; [reflexivity|]. split.
  - intros i I. apply in_map_iff in I. destruct I as (x & <- & J). apply in_seq in J. apply Nat.mod_upper_bound.
    destruct replace; [destruct (A eq_refl); lia|]. specialize (B eq_refl). lia.
  - intros ->. specialize (B eq_refl). rewrite (map_ext_in _ (fun i => i)); [rewrite map_id; apply seq_NoDup|]. intros x I. apply in_seq in I. rewrite Nat.add_0_r. apply Nat.mod_small. lia.
Qed.
Definition some_ints (n size : nat) (g : nat) := round n size true g.
Definition some_scores (n : nat) (g : nat) : list nat * nat := (map (fun i => (7 * i + g) mod 5) (seq 0 n), S g).
Notation pick := (choice round round round some_ints some_scores Nat.leb 0).
Example C107_choice_case : forall fw, exists out g', pick fw (RowsOf [10; 20; 30; 40]) 3 false 1 = Ret (Picked out, g') /\ sample_of [10; 20; 30; 40] 3 false out.
Proof.
  intros fw. change 3%Z with (Z.of_nat 3). apply (C107_choice round round round some_ints some_scores Nat.leb 0 round_ok round_ok round_ok); [|unfold some_scores; intros; cbn [fst]; now rewrite map_length, seq_length|discriminate|lia|cbn; lia].
  intros n size g N. now apply round_ok; auto.
Qed.
Example C107_tensorflow_case : pick TensorFlow (RowsOf [10; 20; 30; 40; 50]) 3 false 1 = Ret (Picked [50; 20; 40], 2).
Proof. vm_compute. reflexivity. Qed.

(** Drawing nothing gives nothing in NumPy, TensorFlow and JAX, but PyTorch
    refuses. *)
Theorem C107_choice_zero_refuted : ~ (forall G A V np to jx ti ts leb d (l : list A) replace (g : G), samples_positions np -> samples_positions to -> samples_positions jx -> l <> [] ->
  forall fw, exists out g', @choice G A V np to jx ti ts leb d fw (RowsOf l) 0 replace g = Ret (Picked out, g') /\ sample_of l 0 replace out).
Proof.
  intros H. destruct (H nat nat nat round round round some_ints some_scores Nat.leb 0 [1] true 0 round_ok round_ok round_ok ltac:(discriminate) PyTorch) as (out & g' & E & _). discriminate E.
Qed.
(** A number is refused, except by NumPy, which samples from the numbers below it. *)
Theorem C107_choice_number_refuted : pick NumPy (@Number nat (Some 5%Z)) 2 false 0 = Ret (Numbers [0%Z; 1%Z], 1) /\ forall fw, fw <> NumPy -> pick fw (@Number nat (Some 5%Z)) 2 false 0 = Raise EOther.
Proof. split; [vm_compute; reflexivity|]. intros [| | |] N; try congruence; reflexivity. Qed.

(** ---- uniform and normal entries ---- *)
Section Uniform.
  Local Open Scope R_scope.
  (** Every entry lies in [low, high), if the libraries' do. *)
  Theorem C107_uniform_range npu tfu jxu u fw low high : low < high ->
    (forall f : R -> R -> R, In f [npu; tfu; jxu] -> low <= f low high < high) -> 0 <= u < 1 -> low <= uniform_entry npu tfu jxu u fw low high < high.
  Proof. intros L H U. destruct fw; cbn; try (apply H; cbn; tauto). nra. Qed.
  Example C107_uniform_case : -1 <= uniform_entry (fun a b => a) (fun a b => (a + b) / 2) (fun a b => a) (1/3) PyTorch (-1) 1 < 1.
  Proof. apply C107_uniform_range; [lra| |lra]. intros f [<-|[<-|[<-|[]]]]; lra. Qed.
  (** An entry of a normal array is the mean plus the deviation times a standard
      normal number (the framework's draw for mean 0 and deviation 1), if the
      libraries' generators have that property; in particular all entries are the
      mean when the deviation is zero. *)
  Theorem C107_normal_scaled npn tn tfn j fw mean std :
    (forall f : R -> R -> R, In f [npn; tn; tfn] -> forall m s, f m s = m + s * f 0 1) ->
    normal_entry npn tn tfn j fw mean std = mean + std * normal_entry npn tn tfn j fw 0 1.
  Proof. intros H. destruct fw; cbn; try (apply H; cbn; tauto). lra. Qed.
  Example C107_normal_case : forall fw, normal_entry (fun m s => m + s * 2) (fun m s => m - s) (fun m s => m) 3 fw 5 0 = 5.
  Proof. intros fw. rewrite C107_normal_scaled; [lra|]. intros f [<-|[<-|[<-|[]]]] m s; lra. Qed.
End Uniform.
(** The result of the [_like] functions has the array's element type in PyTorch and
    JAX, and TensorFlow's normal one; *)
Theorem C107_like_dtype fw t : fw = PyTorch \/ fw = JAX -> t <> I64 -> uniform_like_dtype fw t = Some t /\ normal_like_dtype fw t = Some t /\ normal_like_dtype TensorFlow t = Some t.
Proof. intros [-> | ->] N; destruct t; try congruence; auto. Qed.
(** ... not for NumPy nor for TensorFlow's uniform one. *)
Theorem C107_like_dtype_refuted : uniform_like_dtype NumPy F32 = Some F64 /\ normal_like_dtype NumPy F32 = Some F64 /\ uniform_like_dtype TensorFlow F64 = Some F32.
Proof. repeat split. Qed.

Print Assumptions C107_choice.
Print Assumptions C107_shuffle.
Print Assumptions C107_choice_too_many.
Print Assumptions C107_top_scores.
Print Assumptions C107_choice_zero_refuted.
Print Assumptions C107_choice_number_refuted.
Print Assumptions C107_uniform_range.
Print Assumptions C107_normal_scaled.
Print Assumptions C107_like_dtype.
Print Assumptions C107_like_dtype_refuted.
