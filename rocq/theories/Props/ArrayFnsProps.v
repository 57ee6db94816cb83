(** C101: array functions agree across frameworks and with their documentation. *)
From Coq Require Import List Bool Arith ZArith Reals Lia Lra Psatz.
From Verif.Model Require Import Vec Interop ArrayFns.
From Verif.Spec Require Import ArrayFnsSpec.
From Verif.Proofs Require Import CostProofs VecProofs.
Import ListNotations.
Open Scope nat_scope.

(** ---- row-major order ---- *)
Lemma Forall2_len {A B} (P : A -> B -> Prop) l m : Forall2 P l m -> length l = length m.
Proof. induction 1; cbn; congruence. Qed.
Lemma size_nil : size [] = 1. Proof. reflexivity. Qed.
Lemma size_cons n s : size (n :: s) = n * size s. Proof. reflexivity. Qed.
Local Arguments size : simpl never.
Lemma size_pos_valid s i : valid s i -> 0 < size s.
Proof. induction 1; rewrite ?size_nil, ?size_cons; nia. Qed.
Fixpoint horner (s i : list nat) : nat := match s, i with n :: s', a :: i' => a * size s' + horner s' i' | _, _ => 0 end.
Lemma place_from s : forall i k, valid s i -> fold_left (fun k p => k * snd p + fst p) (combine i s) k = k * size s + horner s i.
Proof.
  induction s as [|n s IH]; intros i k H; inversion H; subst; cbn; [rewrite size_nil; lia|]. rewrite IH by assumption. rewrite size_cons. nia.
Qed.
Lemma place_horner s i : valid s i -> place s i = horner s i.
Proof. intro H. unfold place. now rewrite place_from. Qed.
Lemma horner_lt s : forall i, valid s i -> horner s i < size s.
Proof. induction s as [|n s IH]; intros i H; inversion H; subst; cbn; [rewrite size_nil; lia|]. specialize (IH _ H4). rewrite size_cons. nia. Qed.
Lemma unravel_horner s : forall i, valid s i -> unravel s (horner s i) = i.
Proof.
  induction s as [|n s IH]; intros i H; inversion H; subst; cbn; [reflexivity|].
  pose proof (horner_lt _ _ H4). f_equal.
  - rewrite Nat.div_add_l by lia. rewrite Nat.div_small by assumption. lia.
  - rewrite Nat.add_comm, Nat.mod_add by lia. rewrite Nat.mod_small by assumption. auto.
Qed.
Lemma unravel_ok s : forall k, k < size s -> valid s (unravel s k) /\ horner s (unravel s k) = k.
Proof.
  induction s as [|n s IH]; intros k H; cbn in *; [rewrite size_nil in H; split; [constructor|lia]|]. rewrite size_cons in H.
  assert (P : size s <> 0) by (intro E; rewrite E in H; lia).
  destruct (IH (k mod size s)) as [H1 H2]; [now apply Nat.mod_upper_bound|]. split.
  - constructor; [|exact H1]. apply Nat.div_lt_upper_bound; [exact P|]. lia.
  - rewrite H2. rewrite (Nat.div_mod k (size s)) at 3 by exact P. lia.
Qed.

(** ---- axes ---- *)
Lemma axis_spec r d a : axis r d = Some a <-> names_axis r d a.
Proof.
  unfold axis, names_axis. split.
  - destruct ((0 <=? d)%Z && (d <? Z.of_nat r)%Z) eqn:E.
    + intros [= <-]. lia.
    + destruct ((- Z.of_nat r <=? d)%Z && (d <? 0)%Z) eqn:F; [|discriminate]. intros [= <-]. lia.
  - intros [H [-> | ->]].
    + replace ((0 <=? Z.of_nat a)%Z && (Z.of_nat a <? Z.of_nat r)%Z) with true by (symmetry; apply andb_true_intro; lia). f_equal. lia.
    + replace ((0 <=? Z.of_nat a - Z.of_nat r)%Z && (Z.of_nat a - Z.of_nat r <? Z.of_nat r)%Z) with false by (symmetry; apply andb_false_iff; left; lia).
      replace ((- Z.of_nat r <=? Z.of_nat a - Z.of_nat r)%Z && (Z.of_nat a - Z.of_nat r <? 0)%Z) with true by (symmetry; apply andb_true_intro; lia). f_equal. lia.
Qed.
Lemma remove_length {A} a : forall l : list A, a < length l -> length (remove_at a l) = length l - 1.
Proof. induction a as [|a IH]; intros [|x l] H; cbn in *; try lia. rewrite IH by lia. lia. Qed.
Lemma insert_remove {A} a (j : A) : forall l, a <= length l -> remove_at a (insert_at a j l) = l.
Proof. induction a as [|a IH]; intros [|x l] H; cbn in *; try reflexivity; try lia. rewrite IH by lia. reflexivity. Qed.

(** ---- first largest ---- *)
Lemma best_ok {V} (leb : V -> V -> bool) f : total_order leb -> forall n, 0 < n -> first_largest leb f n (best leb f n).
Proof.
  intros [T Tr] n. induction n as [|m IH]; [lia|]. intros _. cbn.
  destruct (Nat.eqb m 0) eqn:E.
  - apply Nat.eqb_eq in E. subst. split; [lia|]. split; [|lia]. intros j H. replace j with 0 by lia. destruct (T (f 0) (f 0)); assumption.
  - apply Nat.eqb_neq in E. destruct IH as (L & U & F); [lia|]. destruct (leb (f m) (f (best leb f m))) eqn:C.
    + split; [lia|]. split; [|exact F]. intros j H. destruct (Nat.eq_dec j m) as [-> |N]; [exact C|apply U; lia].
    + assert (M : leb (f (best leb f m)) (f m) = true) by (destruct (T (f m) (f (best leb f m))); congruence).
      split; [lia|]. split.
      * intros j H. destruct (Nat.eq_dec j m) as [-> |N]; [destruct (T (f m) (f m)); assumption|]. apply Tr with (f (best leb f m)); [apply U; lia|exact M].
      * intros j H. destruct (leb (f m) (f j)) eqn:D; [|reflexivity]. rewrite <- C. symmetry. apply Tr with (f j); [exact D|apply U; lia].
Qed.
Lemma first_flat {V} (leb : V -> V -> bool) (x : arr V) k :
  first_largest leb (fun k => at_ x (unravel (shape x) k)) (size (shape x)) k -> first_largest_entry leb x k.
Proof.
  intros (L & U & F). destruct (unravel_ok _ _ L) as [W E]. exists (unravel (shape x) k). split; [exact W|]. split; [now rewrite place_horner|].
  intros j J. pose proof (horner_lt _ _ J) as B. split.
  - specialize (U _ B). cbn in U. now rewrite unravel_horner in U.
  - rewrite place_horner by assumption. intro P. specialize (F _ P). cbn in F. now rewrite unravel_horner in F.
Qed.

(** Without [dim]: the place of the largest (smallest) entry of the flattened array,
    the first one if there are several, in an array of shape () or (1, ..., 1). *)
Theorem C101_arg_flat : forall V (leb : V -> V -> bool) f (x : arr V) keep, total_order leb -> 0 < size (shape x) ->
  (exists r, argmax leb f x None keep = Ret r /\ shape r = (if keep then repeat 1 (length (shape x)) else []) /\
     forall i, valid (shape r) i -> first_largest_entry leb x (at_ r i)) /\
  (exists r, argmin leb f x None keep = Ret r /\ shape r = (if keep then repeat 1 (length (shape x)) else []) /\
     forall i, valid (shape r) i -> first_largest_entry (fun a b => leb b a) x (at_ r i)).
Proof.
  assert (G : forall V (leb : V -> V -> bool) f (x : arr V) keep, total_order leb -> 0 < size (shape x) ->
    exists r, arg_function leb f x None keep = Ret r /\ shape r = (if keep then repeat 1 (length (shape x)) else []) /\
     forall i, valid (shape r) i -> first_largest_entry leb x (at_ r i)).
  { intros V leb f x keep T S.
    pose proof (first_flat leb x _ (best_ok leb (fun k => at_ x (unravel (shape x) k)) T _ S)) as B.
    assert (E : Nat.eqb (size (shape x)) 0 = false) by (apply Nat.eqb_neq; lia).
    destruct f; cbn [arg_function np_arg]; rewrite ?E.
    1,2,4: eexists; split; [reflexivity|]; split; [now destruct keep|]; intros i _; exact B.
    unfold tf_math_arg, tf_flat, rank. cbn [shape length nth]. change (axis 1 0) with (Some 0). cbn [nth]. rewrite E. cbn [obind remove_at].
    destruct keep; cbn [negb]; (eexists; split; [reflexivity|]; split; [reflexivity|]); intros i H; cbn [at_ tf_ones insert_at] in *; exact B. }
  intros V leb f x keep T S. split; apply G; auto.
  destruct T as [T Tr]. split; [intros a b; destruct (T a b); auto|]. intros a b c H1 H2. eauto.
Qed.

(** With [dim]: along that axis, counted from either end; the axis is dropped, or
    kept with length 1. *)
Theorem C101_arg_axis : forall V (leb : V -> V -> bool) f (x : arr V) d a keep, total_order leb ->
  names_axis (length (shape x)) d a -> 0 < nth a (shape x) 0 ->
  (exists r, argmax leb f x (Some d) keep = Ret r /\
     shape r = (if keep then insert_at a 1 (remove_at a (shape x)) else remove_at a (shape x)) /\
     forall p, valid (remove_at a (shape x)) p ->
       first_largest leb (fun j => at_ x (insert_at a j p)) (nth a (shape x) 0) (at_ r (if keep then insert_at a 0 p else p))) /\
  (exists r, argmin leb f x (Some d) keep = Ret r /\
     shape r = (if keep then insert_at a 1 (remove_at a (shape x)) else remove_at a (shape x)) /\
     forall p, valid (remove_at a (shape x)) p ->
       first_largest (fun a b => leb b a) (fun j => at_ x (insert_at a j p)) (nth a (shape x) 0) (at_ r (if keep then insert_at a 0 p else p))).
Proof.
  assert (G : forall V (leb : V -> V -> bool) f (x : arr V) d a keep, total_order leb ->
    names_axis (length (shape x)) d a -> 0 < nth a (shape x) 0 ->
    exists r, arg_function leb f x (Some d) keep = Ret r /\
     shape r = (if keep then insert_at a 1 (remove_at a (shape x)) else remove_at a (shape x)) /\
     forall p, valid (remove_at a (shape x)) p ->
       first_largest leb (fun j => at_ x (insert_at a j p)) (nth a (shape x) 0) (at_ r (if keep then insert_at a 0 p else p))).
  { intros V leb f x d a keep T A S.
    assert (E : Nat.eqb (nth a (shape x) 0) 0 = false) by (apply Nat.eqb_neq; lia).
    pose proof A as [L _]. apply axis_spec in A.
    assert (K : forall p, valid (remove_at a (shape x)) p -> a <= length p).
    { intros p H. rewrite (Forall2_len _ _ _ H), remove_length by assumption. lia. }
    destruct f; cbn [arg_function np_arg]; unfold tf_math_arg, rank; rewrite ?A, ?E.
    1,2,4: eexists; split; [reflexivity|]; split; [reflexivity|]; intros p H; cbn [at_]; destruct keep; rewrite ?insert_remove by auto; apply best_ok; auto.
    destruct keep; cbn [negb obind].
    - unfold tf_expand_dims, rank. cbn [shape]. rewrite remove_length by assumption. replace (Datatypes.S (length (shape x) - 1)) with (length (shape x)) by lia.
      rewrite A. eexists. split; [reflexivity|]. split; [reflexivity|]. intros p H. cbn [at_]. rewrite insert_remove by auto. apply best_ok; auto.
    - eexists. split; [reflexivity|]. split; [reflexivity|]. intros p H. apply best_ok; auto. }
  intros V leb f x d a keep T A S. split; apply G; auto.
  destruct T as [T Tr]. split; [intros u v; destruct (T u v); auto|]. intros u v w H1 H2. eauto.
Qed.
(** ... and an axis that does not exist, or nothing to choose from, is refused. *)
Theorem C101_arg_refused : forall V (leb : V -> V -> bool) f (x : arr V) keep,
  (size (shape x) = 0 -> exists e, argmax leb f x None keep = Raise e) /\
  (forall d, (forall a, ~ names_axis (length (shape x)) d a) \/ (exists a, names_axis (length (shape x)) d a /\ nth a (shape x) 0 = 0) ->
     exists e, argmax leb f x (Some d) keep = Raise e).
Proof.
  intros V leb f x keep. split.
  - intro S. unfold argmax. destruct f; cbn [arg_function np_arg]; unfold tf_math_arg, tf_flat, rank; cbn [shape length]; rewrite ?S; cbn; eauto.
  - intros d H. assert (A : axis (length (shape x)) d = None \/ exists a, axis (length (shape x)) d = Some a /\ nth a (shape x) 0 = 0).
    { destruct H as [H | (a & H & Z)]; [left|right; exists a; split; [now apply axis_spec|exact Z]].
      destruct (axis (length (shape x)) d) as [a|] eqn:E; [|reflexivity]. apply axis_spec in E. destruct (H _ E). }
    unfold argmax. destruct f; cbn [arg_function np_arg]; unfold tf_math_arg, rank;
      destruct A as [-> | (a & -> & ->)]; destruct keep; cbn; eauto.
Qed.

(** [transpose] puts the axes in the order given, and reverses them if none is. *)
Lemma find_pos_at a l : In a l -> find_pos a l < length l /\ nth (find_pos a l) l 0 = a.
Proof.
  induction l as [|x l IH]; [intros []|]. intro I. cbn. destruct (Nat.eqb x a) eqn:E.
  - apply Nat.eqb_eq in E. split; [lia|exact E].
  - apply Nat.eqb_neq in E. destruct I as [-> |I]; [now destruct E|]. destruct (IH I). split; [lia|assumption].
Qed.
Lemma is_perm_ok r l : is_perm r l = true <-> every_axis_once r l.
Proof.
  unfold is_perm, every_axis_once. rewrite andb_true_iff, Nat.eqb_eq, forallb_forall. split; intros [L H]; (split; [exact L|]).
  - intros a A. destruct (proj1 (existsb_exists _ _) (H a (proj2 (in_seq _ _ _) (conj (Nat.le_0_l _) A)))) as (b & I & E). apply Nat.eqb_eq in E. now subst.
  - intros a I. apply in_seq in I. apply existsb_exists. exists a. split; [apply H; lia|apply Nat.eqb_refl].
Qed.
Lemma permute_ok {V} (x : arr V) dims : every_axis_once (length (shape x)) dims -> exists r, permute x dims = Ret r /\ transposed x dims r.
Proof.
  intro P. unfold permute, rank. rewrite (proj2 (is_perm_ok _ _) P). eexists. split; [reflexivity|]. split; [reflexivity|].
  intros i j Vi Vj H. cbn [at_]. f_equal. destruct P as [L P]. apply nth_ext with (d := 0) (d' := 0).
  - now rewrite map_length, seq_length, (Forall2_len _ _ _ Vj).
  - intros a A. rewrite map_length, seq_length in A. rewrite nth_indep with (d' := nth (find_pos 0 dims) i 0) by now rewrite map_length, seq_length.
    rewrite (map_nth (fun a => nth (find_pos a dims) i 0)), seq_nth by exact A. cbn.
    destruct (find_pos_at a dims) as [F1 F2]; [now apply P|]. rewrite H by exact F1. now rewrite F2.
Qed.
Theorem C101_transpose : forall V f (x : arr V),
  (forall dims, every_axis_once (length (shape x)) dims -> exists r, transpose f x (Some dims) = Ret r /\ transposed x dims r) /\
  (exists r, transpose f x None = Ret r /\ shape r = rev (shape x) /\ forall i, valid (shape x) i -> at_ r (rev i) = at_ x i).
Proof.
  intros V f x. assert (R : every_axis_once (length (shape x)) (rev (seq 0 (length (shape x))))).
  { split; [now rewrite rev_length, seq_length|]. intros a A. apply in_rev. rewrite rev_involutive. apply in_seq. lia. }
  split.
  - intros dims P. destruct (permute_ok x dims P) as (r & E & T). exists r. split; [|exact T].
    destruct f; cbn; try exact E. destruct dims as [|a l]; [|exact E].
    destruct P as [L _]. cbn in L. unfold rank. rewrite <- L. cbn. exact E.
  - destruct (permute_ok x _ R) as (r & E & S & T).
    assert (X : shape r = rev (shape x)).
    { rewrite S, map_rev. f_equal. apply nth_ext with (d := 0) (d' := 0); [now rewrite map_length, seq_length|].
      intros a A. rewrite map_length, seq_length in A. rewrite nth_indep with (d' := nth 0 (shape x) 0) by now rewrite map_length, seq_length.
      rewrite (map_nth (fun a => nth a (shape x) 0)), seq_nth by exact A. reflexivity. }
    exists r. split; [destruct f; exact E|]. split; [exact X|]. intros i W. apply T; [|exact W|].
    + rewrite X. unfold valid in *. clear - W. induction W; cbn; [constructor|]. apply Forall2_app; auto.
    + rewrite rev_length, seq_length. intros k K. pose proof (Forall2_len _ _ _ W) as LW.
      rewrite rev_nth by lia. rewrite rev_nth by now rewrite seq_length. rewrite seq_length, seq_nth by lia. f_equal. lia.
Qed.
(** Refused: an order that is not one of all the axes; except that PyTorch takes an
    empty one for none, where the others refuse it. *)
Theorem C101_transpose_refused_partial : forall V f (x : arr V) dims, ~ every_axis_once (length (shape x)) dims -> dims <> [] ->
  exists e, transpose f x (Some dims) = Raise e.
Proof.
  intros V f x dims P N. assert (E : is_perm (rank x) dims = false).
  { destruct (is_perm (rank x) dims) eqn:E; [|reflexivity]. apply is_perm_ok in E. destruct (P E). }
  unfold transpose, permute. destruct f, dims; try (now destruct N); rewrite E; eauto.
Qed.
Theorem C101_transpose_empty_refuted : forall V (x : arr V), 0 < length (shape x) ->
  (exists e, transpose NumPy x (Some []) = Raise e) /\ (exists r, transpose PyTorch x (Some []) = Ret r /\ shape r = rev (shape x)).
Proof.
  intros V x L. split.
  - cbn. unfold permute, is_perm, rank. destruct (shape x); [cbn in L; lia|]. cbn. eauto.
  - destruct (C101_transpose V PyTorch x) as [_ (r & E & S & _)]. exists r. split; [exact E|exact S].
Qed.

(** [norm] of a vector is its Euclidean norm, in every framework. *)
Theorem C101_norm_vector : forall f (x : arr R) n, shape x = [n] -> norm_is f x (sqrt (nrm2 n (fun k => at_ x [k]))).
Proof.
  intros f x n S. exists Flattened. split; [unfold norm_all, rank; rewrite S; now destruct f|].
  cbn. unfold flat_norm. rewrite S. rewrite !size_cons, size_nil, !Nat.mul_1_r. f_equal. unfold nrm2, dot.
  apply sumn_ext. intros k K. cbn [unravel]. now rewrite size_nil, Nat.div_1_r.
Qed.
Lemma sumn_prod n m g : sumn (n * m) g = sumn n (fun i => sumn m (fun j => g (i * m + j))).
Proof.
  assert (A : forall a b h, sumn (a + b) h = (sumn a h + sumn b (fun j => h (a + j)%nat))%R).
  { intros a b h. induction b as [|b IH]; [rewrite Nat.add_0_r; cbn; ring|]. rewrite Nat.add_succ_r. cbn [sumn]. rewrite IH. ring. }
  induction n as [|n IH]; [reflexivity|]. cbn [sumn]. rewrite <- IH. replace (S n * m) with (n * m + m) by lia. apply A.
Qed.
Lemma flat_matrix x n m : shape x = [n; m] -> flat_norm x = sqrt (sumn n (fun i => nrm2 m (fun j => at_ x [i; j]))).
Proof.
  intro S. unfold flat_norm. rewrite S. rewrite !size_cons, size_nil, !Nat.mul_1_r. f_equal. unfold nrm2, dot. rewrite sumn_prod.
  apply sumn_ext. intros i I. apply sumn_ext. intros j J. cbn [unravel]. rewrite !size_cons, size_nil, !Nat.mul_1_r, Nat.div_add_l, (Nat.div_small j m J), Nat.add_0_r by lia.
  rewrite (Nat.add_comm (i * m) j), Nat.mod_add by lia. rewrite (Nat.mod_small j m J), Nat.div_1_r. reflexivity.
Qed.
(** For a matrix it is the spectral norm, which is at most the norm of the entries. *)
Theorem C101_norm_matrix : forall f (x : arr R) n m s, shape x = [n; m] ->
  (norm_is f x s <-> spectral n m (fun i j => at_ x [i; j]) s) /\ (norm_is f x s -> (s <= flat_norm x)%R).
Proof.
  intros f x n m s S.
  assert (E : norm_is f x s <-> spectral n m (fun i j => at_ x [i; j]) s).
  { assert (N : norm_all f x = Ret OfMatrix) by (unfold norm_all, rank; rewrite S; now destruct f). split.
    - intros (k & K & H). rewrite N in K. injection K as <-. destruct H as (n' & m' & S' & H). rewrite S in S'. now injection S' as <- <-.
    - intro H. exists OfMatrix. split; [exact N|]. exists n, m. auto. }
  split; [exact E|]. intro H. apply E in H. destruct H as [_ H]. apply H. rewrite (flat_matrix x n m S).
  set (F := sumn n (fun i => nrm2 m (fun j => at_ x [i; j]))).
  assert (F0 : (0 <= F)%R) by (apply sumn_nonneg; intros; apply nrm2_nonneg).
  split; [apply sqrt_pos|]. intro v. rewrite <- sqrt_mult by (try exact F0; apply nrm2_nonneg). apply sqrt_le_1_alt.
  unfold F. rewrite Rmult_comm, <- sumn_scal. unfold nrm2 at 1, dot. apply sumn_le. intros i I. unfold mulv.
  rewrite (Rmult_comm (nrm2 m v)). apply (cauchy_schwarz2 m (fun j => at_ x [i; j]) v).
Qed.
(** So not that of the flattened array, as documented: for the identity it is 1
    whatever the size. *)
Theorem C101_norm_matrix_refuted : forall f (x : arr R) n, 2 <= n -> shape x = [n; n] ->
  (forall i j, at_ x [i; j] = if Nat.eqb i j then 1%R else 0%R) ->
  norm_is f x 1%R /\ flat_norm x = sqrt (INR n) /\ forall s, norm_is f x s -> s <> flat_norm x.
Proof.
  intros f x n N S I.
  assert (D : forall i g, i < n -> sumn n (fun j => at_ x [i; j] * g j)%R = g i).
  { intros i g L. transitivity (sumn n (fun j => if Nat.eqb i j then g i else 0%R)).
    - apply sumn_ext. intros j J. rewrite I. destruct (Nat.eqb i j) eqn:E; [apply Nat.eqb_eq in E; subst|]; ring.
    - clear - L. induction n as [|n IH]; [lia|]. cbn [sumn]. destruct (Nat.eq_dec i n) as [-> |X].
      + rewrite Nat.eqb_refl. replace (sumn n (fun j => if Nat.eqb n j then g n else 0%R)) with 0%R; [ring|].
        symmetry. rewrite (sumn_ext n _ (fun _ => 0%R)); [clear; induction n as [|n IH]; cbn; [reflexivity|rewrite IH; ring]|].
        intros j J. replace (Nat.eqb n j) with false; [reflexivity|]. symmetry. apply Nat.eqb_neq. lia.
      + rewrite IH by lia. replace (Nat.eqb i n) with false by (symmetry; now apply Nat.eqb_neq). ring. }
  assert (M : forall v, nrm2 n (mulv n (fun i j => at_ x [i; j]) v) = nrm2 n v).
  { intro v. apply nrm2_ext. intros i L. unfold mulv. now apply D. }
  assert (F : flat_norm x = sqrt (INR n)).
  { rewrite (flat_matrix x n n S). f_equal. rewrite (sumn_ext n _ (fun _ => 1%R)).
    - clear. induction n as [|n IH]; [reflexivity|]. rewrite S_INR. cbn [sumn]. now rewrite IH.
    - intros i L. unfold nrm2, dot. rewrite D by exact L. now rewrite I, Nat.eqb_refl. }
  assert (Sp : spectral n n (fun i j => at_ x [i; j]) 1%R).
  { split.
    - split; [lra|]. intro v. rewrite M. lra.
    - intros t [T0 T]. specialize (T (fun j => if Nat.eqb j 0 then 1%R else 0%R)). rewrite M in T.
      replace (nrm2 n (fun j => if Nat.eqb j 0 then 1%R else 0%R)) with 1%R in T; [rewrite sqrt_1 in T; lra|].
      symmetry. clear - N. unfold nrm2, dot. destruct n as [|n]; [lia|]. clear N. induction n as [|n IH]; [cbn; ring|].
      cbn [sumn] in *. rewrite IH. cbn. ring. }
  assert (O : (1 < INR n)%R) by (change 1%R with (INR 1); apply lt_INR; lia).
  split; [apply (C101_norm_matrix f x n n 1%R S); exact Sp|]. split; [exact F|].
  intros s H. apply (proj1 (C101_norm_matrix f x n n s S)) in H. assert (s = 1%R) as ->.
  { destruct H as [H1 H2]. destruct Sp as [P1 P2]. apply Rle_antisym; [now apply H2|now apply P2]. }
  rewrite F. intro X. apply (f_equal (fun z => z * z)%R) in X. rewrite sqrt_def in X by lra. lra.
Qed.
(** ... and beyond matrices the documented norm is there in TensorFlow only. *)
Theorem C101_norm_rank_refuted : forall (x : arr R), 3 <= length (shape x) ->
  norm_is TensorFlow x (flat_norm x) /\ forall f s, f <> TensorFlow -> ~ norm_is f x s.
Proof.
  intros x L. unfold norm_is, norm_all, rank. destruct (shape x) as [|a [|b [|c q]]] eqn:S; cbn in L; try lia. split.
  - exists Flattened. split; reflexivity.
  - intros f s N (k & K & _). cbn in K. destruct f; try discriminate. now destruct N.
Qed.

(** ---- concrete cases: the 2 x 3 array of entries 5 1 5 / 2 5 5 ---- *)
Definition ex_x : arr nat := mkArr [2; 3] (fun i => match i with [0; 1] => 1 | [1; 0] => 2 | _ => 5 end).
Lemma leb_total : total_order Nat.leb.
Proof. split; [intros a b|intros a b c]; rewrite ?Nat.leb_le; lia. Qed.
Definition entries {V} (o : out (arr V)) : option (list nat * list V) :=
  match o with Ret r => Some (shape r, map (fun k => at_ r (unravel (shape r) k)) (seq 0 (size (shape r)))) | Raise _ => None end.
Example C101_arg_case : total_order Nat.leb /\ 0 < size (shape ex_x) /\ names_axis (length (shape ex_x)) (-1) 1 /\ 0 < nth 1 (shape ex_x) 0 /\
  entries (argmax Nat.leb TensorFlow ex_x (Some (-1)%Z) true) = Some ([2; 1], [0; 1]) /\
  entries (argmin Nat.leb TensorFlow ex_x (Some 0%Z) false) = Some ([3], [1; 0; 0]) /\
  entries (argmin Nat.leb TensorFlow ex_x None true) = Some ([1; 1], [1]) /\
  entries (argmin Nat.leb Jax ex_x None true) = Some ([1; 1], [1]).
Proof. split; [exact leb_total|]. split; [apply Nat.ltb_lt; reflexivity|]. split; [split; [cbn; lia|right; reflexivity]|]. split; [cbn; lia|]. repeat split. Qed.
Example C101_arg_refused_case : (forall a, ~ names_axis 2 2 a) /\ size (shape (mkArr [2; 0] (fun _ => 0))) = 0.
Proof. split; [intros a [A [B|B]]; lia|reflexivity]. Qed.
Example C101_transpose_case : every_axis_once 2 [1; 0] /\ entries (transpose PyTorch ex_x None) = Some ([3; 2], [5; 2; 1; 5; 5; 5]) /\
  ~ every_axis_once 2 [0; 0] /\ 0 < length (shape ex_x).
Proof.
  split; [split; [reflexivity|]; intros [|[|a]] H; cbn; auto; lia|]. split; [reflexivity|]. split; [|cbn; lia].
  intros [_ H]. specialize (H 1 ltac:(lia)). cbn in H. intuition lia.
Qed.
Definition ex_v : arr R := mkArr [2] (fun i => match i with [0] => 3%R | _ => 4%R end).
Example C101_norm_case : norm_is PyTorch ex_v 5%R.
Proof.
  replace 5%R with (sqrt (nrm2 2 (fun k => at_ ex_v [k]))); [apply C101_norm_vector; reflexivity|].
  unfold nrm2, dot. cbn [sumn]. cbn [at_ ex_v]. replace (0 + 3 * 3 + 4 * 4)%R with (5 * 5)%R by ring. apply sqrt_square. lra.
Qed.
Definition ex_eye n : arr R := mkArr [n; n] (fun i => match i with [a; b] => if Nat.eqb a b then 1%R else 0%R | _ => 0%R end).
Example C101_norm_matrix_case : norm_is NumPy (ex_eye 4) 1%R /\ flat_norm (ex_eye 4) = 2%R.
Proof.
  destruct (C101_norm_matrix_refuted NumPy (ex_eye 4) 4) as (H & F & _); [lia|reflexivity|reflexivity|]. split; [exact H|].
  rewrite F. replace (INR 4) with (2 * 2)%R by (cbn; ring). apply sqrt_square. lra.
Qed.

Print Assumptions C101_arg_flat.
Print Assumptions C101_arg_axis.
Print Assumptions C101_arg_refused.
Print Assumptions C101_transpose.
Print Assumptions C101_transpose_refused_partial.
Print Assumptions C101_transpose_empty_refuted.
Print Assumptions C101_norm_vector.
Print Assumptions C101_norm_matrix.
Print Assumptions C101_norm_matrix_refuted.
Print Assumptions C101_norm_rank_refuted.
