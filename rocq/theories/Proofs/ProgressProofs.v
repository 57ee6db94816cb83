From Coq Require Import List Arith Bool Lia Permutation.
From Verif.Model Require Import Progress.
From Verif.Spec Require Import QueueSpec.
Import ListNotations.

Lemma merge_perm : forall {A} ls (q : list A), merge ls q -> Permutation (concat ls) q.
Proof.
  intros A ls q H. induction H as [ls H|l1 x l l2 q H IH].
  - replace (concat ls) with (@nil A); [constructor|]. induction ls as [|l ls IHl]; [reflexivity|]. cbn. rewrite (H l (or_introl eq_refl)). apply IHl. intros; apply H; now right.
  - rewrite concat_app in *. cbn [concat] in *. cbn [app]. symmetry. etransitivity; [|apply Permutation_middle]. constructor. symmetry. exact IH.
Qed.
Definition sum_for (i : nat) (q : list precord) : nat := fold_right (fun r a => (if i =? p_bar r then p_inc r else 0) + a) 0 q.
Lemma sum_for_app : forall i p q, sum_for i (p ++ q) = sum_for i p + sum_for i q.
Proof. intros i p q. induction p as [|r p IHp]; [reflexivity|]. cbn [app]. unfold sum_for in *. cbn [fold_right]. rewrite IHp. lia. Qed.
Lemma sum_for_perm : forall i p q, Permutation p q -> sum_for i p = sum_for i q.
Proof. intros i p q H. induction H; unfold sum_for in *; cbn [fold_right]; lia. Qed.
Lemma sum_for_concat : forall i ls, sum_for i (concat ls) = fold_right (fun l a => sum_for i l + a) 0 ls.
Proof. intros i ls. induction ls as [|l ls IHls]; [reflexivity|]. cbn [concat fold_right]. now rewrite sum_for_app, IHls. Qed.
(** the listener has consumed a prefix; it stopped early only when finished *)
Lemma listener_prefix : forall ids total q b, exists p q', q = p ++ q' /\ (forall i, listener ids total q b i = b i + sum_for i p) /\ (q' = [] \/ finished ids total (listener ids total q b) = true).
Proof.
  intros ids total. induction q as [|r q IH]; intros b; cbn [listener]; [exists [], []; cbn; auto|].
  destruct (finished ids total b) eqn:Ef.
  - exists [], (r :: q). split; [reflexivity|]. split; [intros; cbn; lia|]. right. exact Ef.
  - destruct (IH (apply_record r b)) as (p & q' & -> & H1 & H2). exists (r :: p), q'. split; [reflexivity|]. split; [|exact H2]. intros i. rewrite H1. cbn [sum_for fold_right]. fold (sum_for i p). unfold apply_record. destruct (i =? p_bar r); lia.
Qed.

(** *** One trial *)
Lemma ceil_pos : forall a s, 0 < s -> 0 < a -> 0 < ceil_div a s.
Proof. intros a s Hs Ha. unfold ceil_div. apply Nat.div_str_pos. lia. Qed.
Lemma ceil_eq : forall a s, 0 < s -> ceil_div a s = a / s + (if a mod s =? 0 then 0 else 1).
Proof.
  intros a s Hs. unfold ceil_div. pose proof (Nat.div_mod a s ltac:(lia)) as E. pose proof (Nat.mod_upper_bound a s ltac:(lia)) as B. destruct (Nat.eqb_spec (a mod s) 0) as [H|H].
  - symmetry. apply (Nat.div_unique _ _ _ (s - 1)); lia.
  - symmetry. apply (Nat.div_unique _ _ _ (a mod s - 1)); nia.
Qed.
Lemma div_succ : forall k s, 0 < s -> S k / s = k / s + (if S k mod s =? 0 then 1 else 0).
Proof.
  intros k s Hs. pose proof (Nat.div_mod k s ltac:(lia)) as E. pose proof (Nat.mod_upper_bound k s ltac:(lia)) as B. destruct (Nat.eq_dec (k mod s) (s - 1)) as [H|H].
  - assert (S k = s * (k / s + 1) + 0) as E1 by nia. rewrite <- (Nat.mod_unique (S k) s (k / s + 1) 0) by lia. rewrite <- (Nat.div_unique (S k) s (k / s + 1) 0) by lia. reflexivity.
  - rewrite <- (Nat.mod_unique (S k) s (k / s) (k mod s + 1)) by lia. rewrite <- (Nat.div_unique (S k) s (k / s) (k mod s + 1)) by lia. destruct (Nat.eqb_spec (k mod s + 1) 0); lia.
Qed.
(** what the records of one trial add to its bar *)
Definition contribution (step : option nat) (iters k : nat) : nat :=
  match step with None => if k <? iters then 0 else 1 | Some s => k / s + (if negb (k mod s =? 0) && (iters <=? k) then 1 else 0) end.
Lemma trial_sum : forall step bar iters start k, (forall s, step = Some s -> 0 < s) -> start < iters -> start <= k <= iters ->
  sum_for bar (trial_records step bar iters start k) = contribution step iters k.
Proof.
  intros step bar iters start k Hs Hi Hk. unfold trial_records. cbn [sum_for fold_right]. fold (sum_for bar (concat (map (advance step bar iters) (seq start (k - start))))).
  cbn [p_bar start_record p_inc]. rewrite Nat.eqb_refl.
  remember (k - start) as d eqn:Ed. revert k Hk Ed. induction d as [|d IH]; intros k Hk Ed.
  - assert (k = start) by lia. subst k. cbn [seq map concat sum_for fold_right]. unfold contribution. destruct step as [s|].
    + specialize (Hs s eq_refl). destruct s as [|s]; [lia|]. replace (iters <=? start) with false by (symmetry; apply Nat.leb_gt; lia). rewrite andb_false_r. lia.
    + replace (start <? iters) with true by (symmetry; apply Nat.ltb_lt; lia). reflexivity.
  - assert (Hk' : start <= k - 1 <= iters /\ d = k - 1 - start) by lia. specialize (IH (k - 1) (proj1 Hk') (proj2 Hk')). rewrite seq_S, map_app, concat_app, sum_for_app. cbn [map concat]. rewrite app_nil_r, Nat.add_assoc, IH.
    replace (start + d) with (k - 1) by lia. unfold contribution, advance. destruct step as [s|].
    + specialize (Hs s eq_refl). replace (k - 1 + 1) with k by lia. replace (iters <=? k - 1) with false by (symmetry; apply Nat.leb_gt; lia). rewrite andb_false_r.
      assert (Ek : k = S (k - 1)) by lia. pose proof (div_succ (k - 1) s Hs) as Dk. rewrite <- Ek in Dk. rewrite Dk. destruct (k mod s =? 0) eqn:Em; cbn [negb andb].
      * cbn. rewrite Nat.eqb_refl. lia.
      * destruct (Nat.ltb_spec k iters) as [Hlt|Hge]; cbn [sum_for fold_right].
        -- replace (iters <=? k) with false by (symmetry; apply Nat.leb_gt; lia). lia.
        -- replace (iters <=? k) with true by (symmetry; apply Nat.leb_le; lia). cbn. rewrite Nat.eqb_refl. lia.
    + replace (k - 1 + 1) with k by lia. replace (k - 1 <? iters) with true by (symmetry; apply Nat.ltb_lt; lia). destruct (k <? iters); cbn; [reflexivity|]. rewrite Nat.eqb_refl. lia.
Qed.
Lemma contribution_bound : forall step iters k, (forall s, step = Some s -> 0 < s) -> 0 < iters -> k <= iters ->
  contribution step iters k <= steps_per_trial step iters /\ (contribution step iters k = steps_per_trial step iters <-> k = iters).
Proof.
  intros step iters k Hs Hi Hk. unfold contribution, steps_per_trial. destruct step as [s|].
  - specialize (Hs s eq_refl). pose proof (ceil_pos iters s Hs Hi). rewrite Nat.max_r by lia. rewrite ceil_eq by exact Hs. destruct (Nat.leb_spec iters k) as [Hle|Hlt].
    + assert (k = iters) by lia. subst k. rewrite andb_true_r. destruct (iters mod s =? 0); cbn; split; try lia; split; auto.
    + rewrite andb_false_r, Nat.add_0_r. pose proof (Nat.div_le_mono k iters s ltac:(lia) ltac:(lia)) as Hd. assert (Lt : k / s < iters / s + (if iters mod s =? 0 then 0 else 1)).
      { destruct (Nat.eqb_spec (iters mod s) 0) as [E|E]; [|lia]. pose proof (Nat.div_mod iters s ltac:(lia)). rewrite Nat.add_0_r. apply Nat.div_lt_upper_bound; lia. }
      split; [lia|]. split; [lia|]. intros ->. lia.
  - destruct (Nat.ltb_spec k iters); split; try lia; split; lia.
Qed.
