(** The estimators: exactness, expectation, and the sampler's batches. *)
From Coq Require Import Reals String List Bool Arith ZArith Lia Lra FunctionalExtensionality Permutation.
From Verif.Model Require Import PyDict History Messages Network Runner Vec Batch.
From Verif.Spec Require Import NetworkSpec P2PSpec P2PVRSpec.
From Verif.Proofs Require Import EmpiricalProofs P2PRuns P2PMean.
Import ListNotations.
Open Scope R_scope.

(** ** Averages *)
Lemma avg_ext B f g : (forall s, In s B -> f s = g s) -> avg B f = avg B g.
Proof. intro H. apply functional_extensionality. intro c. unfold avg. f_equal. apply rsum_map_ext. intros s Hs. now rewrite H. Qed.
Lemma avg_perm B B' f : Permutation B B' -> avg B f = avg B' f.
Proof. intro H. apply functional_extensionality. intro c. unfold avg. rewrite (Permutation_length H). f_equal. apply rsum_perm. now apply Permutation_map. Qed.

Section Est.
  Variables (m : agent_id -> nat) (sg : agent_id -> nat -> vec -> vec).
  Notation full := (full_gradient m sg).

  Lemma saga_exact i B T x : incl B (seq 0 (m i)) -> (forall s, (s < m i)%nat -> T s = sg i s x) -> saga_est m sg i B T x = full i x.
  Proof.
    intros I H. apply functional_extensionality. intro c. unfold saga_est, full_gradient.
    rewrite (avg_ext B T (fun s => sg i s x)) by (intros s Hs; apply H; apply I, in_seq in Hs; lia).
    rewrite (avg_ext (seq 0 (m i)) T (fun s => sg i s x)) by (intros s Hs; apply H; apply in_seq in Hs; lia). ring.
  Qed.
  Lemma svrg_exact i B x : svrg_est m sg i B x x = full i x.
  Proof. apply functional_extensionality. intro c. unfold svrg_est. ring. Qed.
  Lemma sarah_exact i B x v : sarah_est sg i B x v x = v.
  Proof. apply functional_extensionality. intro c. unfold sarah_est. ring. Qed.
  Lemma saga_full_batch i B T x : Permutation B (seq 0 (m i)) -> saga_est m sg i B T x = full i x.
  Proof. intro P. apply functional_extensionality. intro c. unfold saga_est, full_gradient. rewrite !(avg_perm _ _ _ P). ring. Qed.
  Lemma svrg_full_batch i B ta x : Permutation B (seq 0 (m i)) -> svrg_est m sg i B ta x = full i x.
  Proof. intro P. apply functional_extensionality. intro c. unfold svrg_est, full_gradient. rewrite !(avg_perm _ _ _ P). ring. Qed.
  Lemma sarah_full_batch i B xp x : Permutation B (seq 0 (m i)) -> sarah_est sg i B xp (full i xp) x = full i x.
  Proof. intro P. apply functional_extensionality. intro c. unfold sarah_est, full_gradient. rewrite !(avg_perm _ _ _ P). ring. Qed.
End Est.

(** ** Expectations *)
Lemma rsum_app l1 l2 : rsum (l1 ++ l2) = rsum l1 + rsum l2.
Proof. induction l1 as [|x l IH]; cbn [app]; rewrite ?rsum_cons, ?rsum_nil, ?IH; lra. Qed.
Lemma rsum_concat (f : nat -> R) F : rsum (map f (concat F)) = rsum (map (fun B => rsum (map f B)) F).
Proof. induction F as [|B F IH]; cbn [concat map]; [reflexivity|]. now rewrite map_app, rsum_app, rsum_cons, IH. Qed.
Lemma count_repeat (l : list nat) r s : count_occ Nat.eq_dec (concat (repeat l r)) s = (r * count_occ Nat.eq_dec l s)%nat.
Proof. induction r as [|r IH]; cbn [repeat concat]; [reflexivity|]. rewrite count_occ_app, IH. cbn. reflexivity. Qed.
Lemma count_seq n s : count_occ Nat.eq_dec (seq 0 n) s = if Nat.ltb s n then 1%nat else 0%nat.
Proof.
  destruct (Nat.ltb_spec s n) as [H|H].
  - apply NoDup_count_occ'; [apply seq_NoDup|]. apply in_seq. lia.
  - apply count_occ_not_In. rewrite in_seq. lia.
Qed.
Lemma balanced_perm n b r F : balanced n b r F -> Permutation (concat F) (concat (repeat (seq 0 n) r)).
Proof.
  intros (_ & _ & _ & H). apply (Permutation_count_occ Nat.eq_dec). intro s. rewrite H, count_repeat, count_seq. destruct (Nat.ltb s n); lia.
Qed.
Lemma length_concat_same b (F : list (list nat)) : (forall B, In B F -> length B = b) -> length (concat F) = (length F * b)%nat.
Proof.
  induction F as [|B F IH]; intro H; [reflexivity|]. cbn [concat]. rewrite app_length, IH by (intros; apply H; now right). rewrite H by now left. cbn. lia.
Qed.
Lemma length_concat_repeat (l : list nat) r : length (concat (repeat l r)) = (r * length l)%nat.
Proof. induction r as [|r IH]; cbn [repeat concat]; [reflexivity|]. rewrite app_length, IH. cbn. reflexivity. Qed.
Lemma balanced_count n b r F : balanced n b r F -> (length F * b = r * n)%nat.
Proof.
  intro H. pose proof (Permutation_length (balanced_perm _ _ _ _ H)) as L. destruct H as (_ & _ & H & _).
  rewrite (length_concat_same b), length_concat_repeat, seq_length in L by exact H. exact L.
Qed.
Lemma rsum_repeat (f : nat -> R) l r : rsum (map f (concat (repeat l r))) = INR r * rsum (map f l).
Proof.
  induction r as [|r IH]; cbn [repeat concat map]; [rewrite rsum_nil; cbn; lra|]. rewrite map_app, rsum_app, IH, S_INR. lra.
Qed.
Lemma rsum_const {A} (l : list A) (v : R) : rsum (map (fun _ => v) l) = INR (length l) * v.
Proof. induction l as [|x l IH]; cbn [map length]; [rewrite rsum_nil; cbn; lra|]. rewrite rsum_cons, IH, S_INR. lra. Qed.

Theorem expect_avg n b r F f : (0 < n)%nat -> balanced n b r F -> expect F (fun B => avg B f) = avg (seq 0 n) f.
Proof.
  intros N0 H. apply functional_extensionality. intro c. unfold expect, avg. rewrite seq_length.
  pose proof (balanced_count _ _ _ _ H) as L. pose proof (balanced_perm _ _ _ _ H) as P. destruct H as (B0 & R0 & HB & _).
  assert (F0 : (0 < length F)%nat) by (destruct (length F); nia).
  rewrite (rsum_map_ext _ (fun B => / INR b * rsum (map (fun s => f s c) B))).
  2: { intros B Hin. rewrite (HB B Hin). unfold Rdiv. ring. }
  rewrite rsum_map_scal, <- (rsum_concat (fun s => f s c)), (rsum_perm _ _ (Permutation_map _ P)), rsum_repeat.
  assert (LR : INR (length F) * INR b = INR r * INR n) by (rewrite <- !mult_INR; now rewrite L).
  apply lt_INR in N0, B0, R0, F0. cbn [INR] in *. set (q := rsum _). 
  replace (INR r) with (INR (length F) * INR b / INR n) by (rewrite LR; field; lra). field. lra.
Qed.
Lemma expect_const F v : (0 < length F)%nat -> expect F (fun _ => v) = v.
Proof. intro H. apply functional_extensionality. intro c. unfold expect. rewrite rsum_const. apply lt_INR in H. cbn in H. field. lra. Qed.
Lemma expect_add F f g : expect F (fun B => vadd (f B) (g B)) = vadd (expect F f) (expect F g).
Proof. apply functional_extensionality. intro c. unfold expect, vadd. rewrite rsum_map_add. unfold Rdiv. ring. Qed.
Lemma expect_sub F f g : expect F (fun B => vsub (f B) (g B)) = vsub (expect F f) (expect F g).
Proof. apply functional_extensionality. intro c. unfold expect, vsub. rewrite rsum_map_sub. unfold Rdiv. ring. Qed.

Section Unbiased.
  Variables (m : agent_id -> nat) (sg : agent_id -> nat -> vec -> vec) (i : agent_id) (b r : nat) (F : list (list nat)).
  Hypothesis M0 : (0 < m i)%nat.
  Hypothesis BF : balanced (m i) b r F.
  Notation full := (full_gradient m sg).
  Lemma F_pos : (0 < length F)%nat.
  Proof. pose proof (balanced_count _ _ _ _ BF). destruct BF as (? & ? & _). destruct (length F); nia. Qed.
  Theorem saga_unbiased T x : expect F (fun B => saga_est m sg i B T x) = full i x.
  Proof.
    change (fun B => saga_est m sg i B T x) with (fun B => vadd (vsub (avg B (fun s => sg i s x)) (avg B T)) (avg (seq 0 (m i)) T)).
    rewrite expect_add, expect_sub, (expect_avg _ b r _ _ M0 BF), (expect_avg _ b r _ _ M0 BF), expect_const by apply F_pos.
    unfold full_gradient. vext. ring.
  Qed.
  Theorem svrg_unbiased ta x : expect F (fun B => svrg_est m sg i B ta x) = full i x.
  Proof.
    change (fun B => svrg_est m sg i B ta x) with (fun B => vadd (vsub (avg B (fun s => sg i s x)) (avg B (fun s => sg i s ta))) (full i ta)).
    rewrite expect_add, expect_sub, (expect_avg _ b r _ _ M0 BF), (expect_avg _ b r _ _ M0 BF), expect_const by apply F_pos.
    unfold full_gradient. vext. ring.
  Qed.
  Theorem sarah_increment xp v x : expect F (fun B => sarah_est sg i B xp v x) = vadd v (vsub (full i x) (full i xp)).
  Proof.
    change (fun B => sarah_est sg i B xp v x) with (fun B => vadd (vsub (avg B (fun s => sg i s x)) (avg B (fun s => sg i s xp))) v).
    rewrite expect_add, expect_sub, (expect_avg _ b r _ _ M0 BF), (expect_avg _ b r _ _ M0 BF), expect_const by apply F_pos.
    unfold full_gradient. vext. ring.
  Qed.
End Unbiased.

(** ** Windows of uniform permutations *)
Definition swap (s s' x : nat) : nat := if Nat.eqb x s then s' else if Nat.eqb x s' then s else x.
Lemma swap_inv s s' x : swap s s' (swap s s' x) = x.
Proof.
  unfold swap. destruct (Nat.eqb_spec x s) as [->|N1].
  - rewrite Nat.eqb_refl. destruct (Nat.eqb_spec s' s); auto.
  - destruct (Nat.eqb_spec x s') as [->|N2]; [now rewrite Nat.eqb_refl|].
    apply Nat.eqb_neq in N1, N2. now rewrite N1, N2.
Qed.
Lemma swap_inj s s' x y : swap s s' x = swap s s' y -> x = y.
Proof. intro H. rewrite <- (swap_inv s s' x), <- (swap_inv s s' y). now rewrite H. Qed.
Lemma map_swap_inv s s' l : map (swap s s') (map (swap s s') l) = l.
Proof. rewrite map_map. rewrite <- (map_id l) at 2. apply map_ext. apply swap_inv. Qed.
Lemma swap_perm n s s' l : (s < n)%nat -> (s' < n)%nat -> Permutation l (seq 0 n) -> Permutation (map (swap s s') l) (seq 0 n).
Proof.
  intros H H' P. transitivity (map (swap s s') (seq 0 n)); [now apply Permutation_map|].
  apply NoDup_Permutation; [apply FinFun.Injective_map_NoDup; [intros x y; apply swap_inj|apply seq_NoDup]|apply seq_NoDup|].
  assert (SW : forall x, (x < n)%nat -> (swap s s' x < n)%nat) by (intros x Hx; unfold swap; destruct (Nat.eqb x s); auto; destruct (Nat.eqb x s'); auto).
  intro x. rewrite in_map_iff. split.
  - intros (y & <- & Hy). apply in_seq in Hy. apply in_seq. split; [lia|]. apply SW. lia.
  - intro Hx. apply in_seq in Hx. exists (swap s s' x). split; [apply swap_inv|]. apply in_seq. split; [lia|]. apply SW. lia.
Qed.
Lemma count_map_swap s s' l x : count_occ Nat.eq_dec (map (swap s s') l) (swap s s' x) = count_occ Nat.eq_dec l x.
Proof.
  induction l as [|y l IH]; [reflexivity|]. cbn [map count_occ]. rewrite IH. destruct (Nat.eq_dec (swap s s' y) (swap s s' x)) as [E|E], (Nat.eq_dec y x) as [E'|E']; auto.
  - apply swap_inj in E. congruence.
  - congruence.
Qed.


Section Windows.
  Variables (n b j : nat) (P : list (list nat)).
  Hypothesis AP : all_permutations n P.
  Hypothesis B0 : (0 < b)%nat.
  Hypothesis JB : (j + b <= n)%nat.
  Notation win := (fun p : list nat => firstn b (skipn j p)).

  Lemma P_swap s s' : (s < n)%nat -> (s' < n)%nat -> Permutation (map (map (swap s s')) P) P.
  Proof.
    intros H H'. destruct AP as (ND & IN). apply NoDup_Permutation; auto.
    - apply FinFun.Injective_map_NoDup; auto. intros l l' E. rewrite <- (map_swap_inv s s' l), <- (map_swap_inv s s' l'). now rewrite E.
    - intro p. rewrite in_map_iff. split.
      + intros (q & <- & Hq). apply IN. apply IN in Hq. now apply swap_perm.
      + intro Hp. exists (map (swap s s') p). split; [apply map_swap_inv|]. apply IN. apply IN in Hp. now apply swap_perm.
  Qed.
  Lemma count_concat (F F' : list (list nat)) s : Permutation F F' -> count_occ Nat.eq_dec (concat F) s = count_occ Nat.eq_dec (concat F') s.
  Proof. induction 1; cbn [concat]; rewrite ?count_occ_app; lia. Qed.
  Lemma win_map f p : win (map f p) = map f (win p).
  Proof. cbn. now rewrite skipn_map, firstn_map. Qed.
  Lemma concat_win f : concat (map win (map (map f) P)) = map f (concat (map win P)).
  Proof. clear. induction P as [|p Q IH]; [reflexivity|]. cbn [map concat]. rewrite IH, map_app, skipn_map, firstn_map. reflexivity. Qed.
  Lemma win_count s s' : (s < n)%nat -> (s' < n)%nat -> count_occ Nat.eq_dec (concat (map win P)) s = count_occ Nat.eq_dec (concat (map win P)) s'.
  Proof.
    intros H H'. rewrite <- (count_map_swap s s'). replace (swap s s' s) with s' by (unfold swap; now rewrite Nat.eqb_refl).
    rewrite <- concat_win. apply count_concat. apply Permutation_map. now apply P_swap.
  Qed.
  Theorem windows_balanced : exists r, balanced n b r (map win P).
  Proof.
    exists (count_occ Nat.eq_dec (concat (map win P)) 0%nat). destruct AP as (ND & IN).
    assert (LEN : forall B, In B (map win P) -> length B = b).
    { intros B HB. apply in_map_iff in HB. destruct HB as (p & <- & Hp). apply IN, Permutation_length in Hp. rewrite seq_length in Hp.
      rewrite firstn_length, skipn_length. lia. }
    assert (SUB : forall s, In s (concat (map win P)) -> (s < n)%nat).
    { intros s Hs. apply in_concat in Hs. destruct Hs as (B & HB & Hs). apply in_map_iff in HB. destruct HB as (p & <- & Hp).
      apply (In_nth _ _ 0%nat) in Hs. destruct Hs as (q & Hq & E). apply IN in Hp. 
      assert (Is : In s p).
      { rewrite <- (firstn_skipn j p), <- (firstn_skipn b (skipn j p)). apply in_or_app. right. apply in_or_app. left. rewrite <- E. now apply nth_In. }
      apply (Permutation_in _ Hp), in_seq in Is. lia. }
    split; [exact B0|]. split; [|split; [exact LEN|]].
    - assert (Hid : In (win (seq 0 n)) (map win P)) by exact (in_map win P (seq 0 n) (proj2 (IN (seq 0 n)) (Permutation_refl _))).
      pose proof (LEN _ Hid) as L. destruct (win (seq 0 n)) as [|s l] eqn:E; [cbn in L; lia|].
      assert (Is : In s (concat (map win P))) by (apply in_concat; exists (s :: l); split; [exact Hid|now left]).
      pose proof (SUB s Is). rewrite (win_count 0%nat s) by lia. now apply count_occ_In.
    - intro s. destruct (Nat.ltb_spec s n).
      + apply win_count; lia.
      + apply count_occ_not_In. intro Hs. apply SUB in Hs. lia.
  Qed.
End Windows.

(** the [j]-th batch of the first epoch is a window of the first permutation *)
Lemma draw_in_epoch (perm : nat -> list nat -> list nat) n b (p : list nat) : (0 < b)%nat -> (b < n)%nat -> length p = n -> perm 0%nat (seq 0 n) = p ->
  forall j la, (j < n / b)%nat ->
  let s := {| sp_last := la; sp_remaining := skipn (j * b) p; sp_draws := 1 |} in
  fst (draw_batch perm n b s) = firstn b (skipn (j * b) p) /\ sp_remaining (snd (draw_batch perm n b s)) = skipn (S j * b) p /\ sp_draws (snd (draw_batch perm n b s)) = 1%nat.
Proof.
  intros B0 BN L E j la Hj s. assert (JB : (j * b + b <= n)%nat) by (pose proof (Nat.mul_div_le n b ltac:(lia)); nia).
  unfold draw_batch. cbn [sp_remaining sp_draws sp_last s].
  assert (LS : length (skipn (j * b) p) = (n - j * b)%nat) by (rewrite skipn_length; lia).
  destruct (skipn (j * b) p) as [|y l] eqn:ES; [cbn in LS; lia|].
  assert (LE : (b <=? length (y :: l)) = true) by (apply Nat.leb_le; lia). rewrite LE. cbn [fst snd sp_remaining sp_draws]. split; auto. split; auto.
  rewrite <- ES. clear. replace (S j * b)%nat with (b + j * b)%nat by lia. revert p. generalize (j * b)%nat as a. intro a. induction a as [|a IH]; intro p; [now rewrite Nat.add_0_r|].
  rewrite Nat.add_succ_r. destruct p; cbn [skipn]; [now destruct b|]. apply IH.
Qed.

Lemma epoch_answers (perm : nat -> list nat -> list nat) n b (p : list nat) : (0 < b)%nat -> (b < n)%nat -> length p = n -> perm 0%nat (seq 0 n) = p ->
  forall k j la, (j + k <= n / b)%nat ->
  fst (calls perm n b (repeat IxBatch k) {| sp_last := la; sp_remaining := skipn (j * b) p; sp_draws := 1 |}) =
  map (fun q => BOk (map Z.of_nat (firstn b (skipn (q * b) p)))) (seq j k).
Proof.
  intros B0 BN L E. induction k as [|k IH]; intros j la H; [reflexivity|]. cbn [repeat calls seq map].
  unfold sample_batch_indices. replace (b <? n) with true by (symmetry; apply Nat.ltb_lt; lia).
  destruct (draw_in_epoch perm n b p B0 BN L E j la ltac:(lia)) as (D1 & D2 & D3).
  destruct (draw_batch perm n b _) as [sample s'] eqn:ED. cbn [fst snd] in *. subst sample. 
  specialize (IH (S j) (Some (zs (firstn b (skipn (j * b) p)))) ltac:(lia)).
  replace (with_last (zs (firstn b (skipn (j * b) p))) s') with {| sp_last := Some (zs (firstn b (skipn (j * b) p))); sp_remaining := skipn (S j * b) p; sp_draws := 1 |}
    by (unfold with_last; now rewrite D2, D3).
  destruct (calls perm n b (repeat IxBatch k) _) as [rs s2] eqn:EC. cbn [fst] in *. now rewrite IH.
Qed.
Lemma first_epoch (perm : nat -> list nat -> list nat) n b (p : list nat) k : (0 < b)%nat -> (b < n)%nat -> length p = n -> perm 0%nat (seq 0 n) = p ->
  (k <= n / b)%nat ->
  fst (calls perm n b (repeat IxBatch k) sp_new) = map (fun q => BOk (map Z.of_nat (firstn b (skipn (q * b) p)))) (seq 0 k).
Proof.
  intros B0 BN L E H. rewrite <- (epoch_answers perm n b p B0 BN L E k 0 None) by lia.
  destruct k as [|k]; [reflexivity|]. cbn [repeat calls]. unfold sample_batch_indices. replace (b <? n) with true by (symmetry; apply Nat.ltb_lt; lia).
  assert (D : draw_batch perm n b sp_new = draw_batch perm n b {| sp_last := None; sp_remaining := skipn (0 * b) p; sp_draws := 1 |}); [|now rewrite D].
  unfold draw_batch. cbn [sp_new sp_remaining sp_draws sp_last Nat.mul skipn]. rewrite E. destruct p as [|y l]; [cbn in L; lia|]. reflexivity.
Qed.
