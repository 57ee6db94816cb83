(** C19, C20: compression accuracy and size. *)
From Coq Require Import List Bool Arith ZArith QArith Qround Reals Permutation Lia Lra.
From Flocq Require Import Core.Raux Core.Generic_fmt Core.Round_NE.
From Verif.Model Require Import Schemes Compression.
From Verif.Spec Require Import CompressionSpec.
From Verif.Proofs Require Import SchemesProofs SortProofs CompressionProofs.
Import ListNotations.
Open Scope R_scope.

(** Quantization: every entry becomes a multiple of the step, no multiple is
    closer, the error is at most half a step, and quantizing again changes nothing. *)
Theorem C19_quantization : forall step step' msg,
  quant_init step = Some step' ->
  let q := quant step' msg in
  length q = length msg /\
  (forall i, (i < length msg)%nat -> multiple_of step (nth i q 0) /\ Rabs (nth i q 0 - nth i msg 0) <= step / 2 /\
     forall z : Z, Rabs (nth i q 0 - nth i msg 0) <= Rabs (step * IZR z - nth i msg 0)) /\
  quant step' q = q.
Proof.
  unfold quant_init. intros step step' msg H. destruct (Rle_dec step 0); [discriminate|]. injection H as <-.
  assert (P : 0 < step) by lra. split; [apply map_length|]. split.
  - intros i Hi. unfold quant. set (f := fun v => _).
    rewrite nth_indep with (d' := f 0) by (rewrite map_length; auto). rewrite map_nth. unfold f.
    split; [eexists; reflexivity|]. split; [now apply quant_err|]. intro z. now apply quant_nearest.
  - unfold quant. rewrite map_map. apply map_ext. intro v. now apply quant_fix.
Qed.
Example C19_quantization_nonvacuous : exists s, quant_init (1/2) = Some s /\ quant s [3/5; 3/4; -2] = [1/2; 1; -2].
Proof.
  exists (1/2). unfold quant_init. destruct (Rle_dec (1/2) 0); [lra|]. split; auto.
  assert (N : forall v z, Rabs (v / (1/2) - IZR z) < /2 -> ZnearestE (v / (1/2)) = z).
  { intros v z H. now apply Znearest_imp. }
  unfold quant. cbn [map]. rewrite (N (3/5) 1%Z), (N (-2) (-4)%Z).
  - replace (ZnearestE (3/4/(1/2))) with 2%Z; [f_equal; [lra|f_equal; [lra|f_equal; lra]]|].
    replace (3/4/(1/2)) with (3/2) by lra.
    assert (F : Zfloor (3/2) = 1%Z) by (apply Zfloor_imp; simpl; lra).
    assert (C : Zceil (3/2) = 2%Z) by (apply Zceil_imp; simpl; lra).
    unfold Znearest. rewrite F, C. rewrite Rcompare_Eq by (simpl; lra). reflexivity.
  - apply Rabs_def1; simpl; lra.
  - apply Rabs_def1; simpl; lra.
Qed.

(** Stochastic quantization: with s levels and draws in [0,1), every entry
    becomes norm*l/s with the sign of the entry, where l is one of the two
    integers next to s|v|/norm and at most s; the error is at most norm/s; the
    upper level is taken exactly below a threshold p which makes the average
    of the two outcomes weighted by p and 1-p equal to the entry (unbiased). *)
Theorem C19_stochastic_quantization : forall n_levels s msg us,
  squant_init n_levels = Some s -> length us = length msg -> Forall (fun u => 0 <= u < 1) us ->
  let q := squant s msg us in
  length q = length msg /\
  forall i, (i < length msg)%nat ->
    let v := nth i msg 0 in let o := nth i q 0 in
    same_sign o v /\ (v = 0 -> o = 0) /\
    Rabs (o - v) <= norm2 msg / IZR s /\
    exists l : Z, (0 <= l <= s)%Z /\ Rabs o = (if Req_EM_T v 0 then 0 else norm2 msg * IZR l / IZR s) /\
      Rabs (IZR s * Rabs v - norm2 msg * IZR l) <= norm2 msg.
Proof.
  intros n s msg us H L FU q. unfold squant_init in H. destruct (Z.leb_spec n 0); [discriminate|]. injection H as <-.
  assert (SP := s_pos n H0).
  assert (LQ : length q = length msg).
  { unfold q, squant. destruct (Req_EM_T _ _); [apply map_length|]. rewrite map_length, combine_length. lia. }
  split; auto. intros i Hi v o.
  assert (IV : In v msg) by now apply nth_In.
  pose proof (norm_entry msg v IV) as NV. pose proof (norm_nonneg msg) as NN.
  unfold o, q, squant. destruct (Req_EM_T (norm2 msg) 0) as [Z|Z].
  - assert (V0 : v = 0) by (now apply (norm_zero msg)).
    replace (nth i (map (fun _ : R => 0) msg) 0) with 0 by (symmetry; clear; revert i; induction msg; destruct i; simpl; auto).
    rewrite V0, Z. unfold same_sign. split; [lra|]. split; [auto|]. split; [rewrite Rminus_0_r, Rabs_R0; unfold Rdiv; lra|].
    exists 0%Z. split; [lia|]. split; [destruct (Req_EM_T 0 0); [apply Rabs_R0|lra]|]. rewrite Rabs_R0, !Rmult_0_r, Rminus_0_r, Rabs_R0. lra.
  - assert (NP : 0 < norm2 msg) by lra.
    set (u := nth i us 0).
    replace (nth i _ 0) with (sq_entry n (norm2 msg) v u).
    2:{ set (f := fun vu => _). rewrite nth_indep with (d' := f (0, 0)) by (rewrite map_length, combine_length; lia).
        rewrite map_nth, combine_nth by auto. reflexivity. }
    assert (U : 0 <= u < 1) by (rewrite Forall_forall in FU; apply FU, nth_In; lia).
    destruct (level_spec n (norm2 msg) v H0 NP NV u U) as (_ & B & E & _).
    set (l := sq_level n (norm2 msg) v u) in *.
    assert (EO : sq_entry n (norm2 msg) v u = sgn v * (norm2 msg * IZR l / IZR n)) by (unfold sq_entry; fold l; field; lra).
    assert (MP : 0 <= norm2 msg * IZR l / IZR n).
    { apply Rmult_le_pos; [apply Rmult_le_pos; [lra|apply IZR_le; lia]|]. left. now apply Rinv_0_lt_compat. }
    split; [|split; [|split]].
    + unfold same_sign. rewrite EO.
      replace (sgn v * (norm2 msg * IZR l / IZR n) * v) with (Rsqr (sgn v) * ((norm2 msg * IZR l / IZR n) * Rabs v)).
      2:{ transitivity (sgn v * (norm2 msg * IZR l / IZR n) * (sgn v * Rabs v)); [unfold Rsqr; ring|now rewrite sgn_abs]. }
      apply Rmult_le_pos; [apply Rle_0_sqr|]. apply Rmult_le_pos; auto. apply Rabs_pos.
    + intro V0. rewrite EO. unfold sgn. rewrite V0. destruct (Rlt_dec 0 0); [lra|]. ring.
    + now apply entry_err.
    + exists l. split; auto. split.
      * rewrite EO, Rabs_mult. destruct (Req_EM_T v 0) as [V0|V0].
        { unfold sgn. rewrite V0. destruct (Rlt_dec 0 0); [lra|]. rewrite Rabs_R0. ring. }
        rewrite (Rabs_pos_eq _ MP). unfold sgn. destruct (Rlt_dec v 0); [rewrite Rabs_left by lra; ring|].
        destruct (Rlt_dec 0 v); [rewrite Rabs_right by lra; ring|lra].
      * replace (IZR n * Rabs v - norm2 msg * IZR l) with (- (norm2 msg * (IZR l - IZR n * Rabs v / norm2 msg))) by (field; lra).
        rewrite Rabs_Ropp, Rabs_mult, (Rabs_pos_eq (norm2 msg)) by lra. rewrite <- (Rmult_1_r (norm2 msg)) at 3.
        apply Rmult_le_compat_l; lra.
Qed.
(** Unbiasedness: for every entry there are two outcomes and a probability. *)
Theorem C19_stochastic_quantization_unbiased : forall n_levels s msg i,
  squant_init n_levels = Some s -> (i < length msg)%nat -> norm2 msg <> 0 ->
  exists p hi lo, 0 <= p < 1 /\ p * hi + (1 - p) * lo = nth i msg 0 /\
    forall us, length us = length msg -> Forall (fun u => 0 <= u < 1) us ->
      (nth i us 0 < p -> nth i (squant s msg us) 0 = hi) /\ (p <= nth i us 0 -> nth i (squant s msg us) 0 = lo).
Proof.
  unfold squant_init. intros n s msg i H Hi NZ. destruct (Z.leb_spec n 0); [discriminate|]. injection H as <-.
  assert (SP := s_pos n H0). pose proof (norm_nonneg msg). assert (NP : 0 < norm2 msg) by lra.
  set (v := nth i msg 0). set (a := IZR n * Rabs v / norm2 msg). set (f := IZR (Zfloor a)).
  pose proof (Zfloor_lb a) as L. pose proof (Zfloor_ub a) as U.
  exists (a - f), (norm2 msg * sgn v * (f + 1) / IZR n), (norm2 msg * sgn v * f / IZR n).
  split; [unfold f; lra|]. split.
  { transitivity (norm2 msg * sgn v * a / IZR n); [field; lra|]. transitivity (sgn v * Rabs v); [unfold a; field; split; lra|apply sgn_abs]. }
  intros us LU FU.
  assert (E : nth i (squant n msg us) 0 = sq_entry n (norm2 msg) v (nth i us 0)).
  { unfold squant. destruct (Req_EM_T (norm2 msg) 0); [contradiction|].
    set (g := fun vu => _). rewrite nth_indep with (d' := g (0, 0)) by (rewrite map_length, combine_length; lia).
    rewrite map_nth, combine_nth by auto. reflexivity. }
  rewrite E. unfold sq_entry, sq_level. cbv zeta. fold a f.
  split; intro C; destruct (Rlt_dec (nth i us 0) (a - f)); try lra; rewrite plus_IZR; fold f; f_equal; f_equal; ring.
Qed.
Example C19_stochastic_nonvacuous : exists s, squant_init 4 = Some s /\ norm2 [3; -4] = 5 /\ sq_entry s 5 3 (1/2) = 5/2 /\ sq_entry s 5 3 (1/10) = 15/4 /\ sq_entry s 5 (-4) (1/2) = -15/4.
Proof.
  exists 4%Z. split; [reflexivity|]. split.
  { unfold norm2. simpl. replace (3 * 3 + (-4 * -4 + 0)) with (5 * 5) by ring. apply sqrt_square. lra. }
  unfold sq_entry, sq_level, sgn. cbv zeta. rewrite (Rabs_right 3), (Rabs_left (-4)) by lra.
  replace (4 * 3 / 5) with (12 / 5) by lra. replace (4 * - -4 / 5) with (16/5) by lra.
  assert (F1 : Zfloor (12/5) = 2%Z) by (apply Zfloor_imp; simpl; lra). assert (F2 : Zfloor (16/5) = 3%Z) by (apply Zfloor_imp; simpl; lra).
  rewrite F1, F2. repeat (destruct (Rlt_dec _ _); try lra); simpl; try lra.
Qed.

(** TopK: the entries kept are exact, the others zero, exactly [k_count] are
    kept, and no dropped entry exceeds a kept one in magnitude. *)
Theorem C19_topk : forall k k' msg part out,
  k_init k = Some k' -> is_argpartition (map Rabs msg) (k_count k' (length msg)) part ->
  topk k' part msg = Some out ->
  exists kept : list nat,
    NoDup kept /\ length kept = k_count k' (length msg) /\ (forall i, In i kept -> (i < length msg)%nat) /\
    length out = length msg /\
    (forall i, In i kept -> nth i out 0 = nth i msg 0) /\
    (forall i, ~ In i kept -> nth i out 0 = 0) /\
    (forall i j, (i < length msg)%nat -> ~ In i kept -> In j kept -> Rabs (nth i msg 0) <= Rabs (nth j msg 0)).
Proof.
  intros k k' msg part out KI (P & A) H. apply k_init_valid in KI. destruct KI as (-> & V).
  unfold topk in H. destruct msg as [|m0 rest]; [discriminate|]. set (msg := m0 :: rest) in *. apply some_inv in H. subst out.
  rewrite map_length in P, A. set (n := length msg) in *. set (c := k_count k n) in *.
  assert (C : (1 <= c <= n)%nat) by (apply k_count_range; auto; unfold n, msg; simpl; lia).
  assert (LP : length part = n) by (rewrite (Permutation_length P); apply seq_length).
  exists (skipn (n - c) part).
  assert (ND : NoDup part) by (apply (Permutation_NoDup (Permutation_sym P)), seq_NoDup).
  assert (R : forall i, In i (skipn (n - c) part) -> (i < n)%nat).
  { intros i Hi. apply in_skipn in Hi. apply (Permutation_in _ P) in Hi. apply in_seq in Hi. lia. }
  split; [now apply NoDup_skipn|]. split; [rewrite skipn_length; lia|]. split; [exact R|].
  split; [apply keep_length|].
  split; [intros i Hi; pose proof (R i Hi); rewrite keep_nth by auto; now rewrite (proj2 (existsb_eqb_in i _) Hi)|].
  split.
  - intros i Hi. destruct (Nat.lt_ge_cases i n) as [B|B].
    + rewrite keep_nth by auto. destruct (existsb _ _) eqn:E; auto. apply existsb_eqb_in in E. contradiction.
    + apply nth_overflow. rewrite keep_length. exact B.
  - intros i j Hi Ni Hj.
    assert (Ii : In i (firstn (n - c) part)).
    { assert (In i part) by (apply (Permutation_in _ (Permutation_sym P)), in_seq; lia).
      destruct (firstn_or_skipn (n - c) part i H); [auto|contradiction]. }
    specialize (A i j Ii Hj). rewrite <- Rabs_R0 in A at 1 2. now rewrite !map_nth in A.
Qed.
(** RandK keeps exactly the drawn entries. *)
Theorem C19_randk : forall k k' msg order out,
  k_init k = Some k' -> Permutation order (seq 0 (length msg)) ->
  randk k' order msg = Some out ->
  let kept := firstn (k_count k' (length msg)) order in
  NoDup kept /\ length kept = k_count k' (length msg) /\ length out = length msg /\
  (forall i, In i kept -> nth i out 0 = nth i msg 0) /\ (forall i, ~ In i kept -> nth i out 0 = 0).
Proof.
  intros k k' msg order out KI P H. apply k_init_valid in KI. destruct KI as (-> & V).
  unfold randk in H. set (c := k_count k (length msg)) in *. destruct (Nat.ltb_spec (length msg) c); [discriminate|]. injection H as <-.
  cbv zeta. assert (LP : length order = length msg) by (rewrite (Permutation_length P); apply seq_length).
  split; [apply NoDup_firstn, (Permutation_NoDup (Permutation_sym P)), seq_NoDup|].
  split; [rewrite firstn_length; lia|]. split; [apply keep_length|]. split.
  - intros i Hi. rewrite keep_nth.
    + now rewrite (proj2 (existsb_eqb_in i _) Hi).
    + apply in_firstn in Hi. apply (Permutation_in _ P) in Hi. apply in_seq in Hi. lia.
  - intros i Hi. destruct (Nat.lt_ge_cases i (length msg)) as [B|B].
    + rewrite keep_nth by auto. destruct (existsb _ _) eqn:E; auto. apply existsb_eqb_in in E. contradiction.
    + apply nth_overflow. rewrite keep_length. exact B.
Qed.
Example C19_topk_nonvacuous : k_init (KFrac (2#5)) = Some (KFrac (2#5)) /\ is_argpartition (map Rabs [3; -5; 1]) (k_count (KFrac (2#5)) 3) [2; 0; 1]%nat /\
  topk (KFrac (2#5)) [2; 0; 1]%nat [3; -5; 1] = Some [3; -5; 0].
Proof.
  split; [reflexivity|]. split; [|reflexivity]. split.
  - apply NoDup_Permutation; [repeat constructor; simpl; intuition lia|apply (seq_NoDup 3 0)|intro x; simpl; intuition lia].
  - simpl. intros i j [<-|[]] [<-|[<-|[]]]; unfold Rabs; repeat destruct (Rcase_abs _); lra.
Qed.

(** C20. On non-empty messages the reported size is the number of entries
    kept, at most the message size, for every fraction and every count not
    larger than the message. *)
Theorem C20_size_is_transmitted_partial : forall k k' msg,
  k_init k = Some k' -> msg <> [] ->
  (match k with KInt c => (c <= Z.of_nat (length msg))%Z | KFrac _ => True end) ->
  k_size k' msg = Z.of_nat (k_count k' (length msg)) /\ (1 <= k_size k' msg <= default_size msg)%Z.
Proof.
  intros k k' msg KI NE C. apply k_init_valid in KI. destruct KI as (-> & V). unfold default_size.
  assert (N : (1 <= length msg)%nat) by (destruct msg; [congruence|simpl; lia]).
  pose proof (k_count_range k (length msg) V N) as R.
  assert (E : k_size k msg = Z.of_nat (k_count k (length msg))).
  { destruct k as [c|f]; cbn [k_size k_count valid_k] in *; [lia|]. destruct V as (V1 & V2).
    pose proof (k_ceil_pos f (length msg) V1 N). lia. }
  split; auto. lia.
Qed.
(** Finding: a count larger than the message is accepted and reported as is, so
    the "compressed" message counts as more than the uncompressed one. *)
Theorem C20_size_bounded_refuted : exists k msg part out,
  k_init k = Some k /\ topk k part msg = Some out /\ out = msg /\
  (k_size k msg > default_size msg)%Z /\ (k_size k msg <> Z.of_nat (k_count k (length msg)))%Z.
Proof.
  exists (KInt 5), [1; 2], [0; 1]%nat, [1; 2]. repeat split; try reflexivity; simpl; lia.
Qed.
Example C20_nonvacuous : k_size (KFrac (1#3)) [1; 2; 3; 4] = 2%Z /\ k_count (KFrac (1#3)) 4 = 2%nat /\ k_size (KInt 3) [1; 2; 3; 4] = 3%Z.
Proof. repeat split; reflexivity. Qed.

Print Assumptions C19_quantization.
Print Assumptions C19_stochastic_quantization.
Print Assumptions C19_topk.
Print Assumptions C20_size_is_transmitted_partial.
