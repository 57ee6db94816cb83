From Coq Require Import Reals List Bool Arith ZArith Lia Lra Permutation FunctionalExtensionality.
From Verif.Model Require Import Vec Costs Batch EmpiricalRisk.
From Verif.Spec Require Import CostSpec BatchSpec EmpiricalSpec.
From Verif.Proofs Require Import CostProofs CostOk VecProofs CostAnalysis CostBuiltin BatchProofs EmpiricalProofs.
From Verif.Props Require Import BatchProps.
Import ListNotations.

Lemma calls_app : forall perm n b ixs ix s, calls perm n b (ixs ++ [ix]) s =
  (fst (calls perm n b ixs s) ++ [fst (sample_batch_indices perm n b ix (snd (calls perm n b ixs s)))],
   snd (sample_batch_indices perm n b ix (snd (calls perm n b ixs s)))).
Proof.
  intros perm n b. induction ixs as [|i ixs IH]; intros ix s; cbn [calls app].
  - cbn [fst snd]. destruct (sample_batch_indices perm n b ix s). reflexivity.
  - destruct (sample_batch_indices perm n b i s) as [r s1]. rewrite IH. destruct (calls perm n b ixs s1). reflexivity.
Qed.
Lemma calls_length : forall perm n b ixs s, length (fst (calls perm n b ixs s)) = length ixs.
Proof.
  intros perm n b. induction ixs as [|i ixs IH]; intros s; cbn [calls]; [reflexivity|].
  destruct (sample_batch_indices perm n b i s) as [r s1]. specialize (IH s1). destruct (calls perm n b ixs s1). cbn in *. congruence.
Qed.
Lemma batch_answers_last : forall ixs rs l, length rs = length ixs -> In l (batch_answers (ixs ++ [IxBatch]) (rs ++ [BOk l])).
Proof.
  induction ixs as [|i ixs IH]; intros [|r rs] l H; try discriminate H.
  - now left.
  - cbn in *. assert (In l (batch_answers (ixs ++ [IxBatch]) (rs ++ [BOk l]))) by (apply IH; lia).
    destruct i, r; cbn; auto.
Qed.
Lemma names_of_range : forall (D : dataset) l, (forall z, In z l -> (0 <= z < Z.of_nat (length D))%Z) -> exists ps, names D l ps.
Proof.
  intros D l H. destruct (py_rows D l) as [ps|] eqn:E; [exists ps; now apply py_rows_names|].
  exfalso. apply py_rows_none in E. destruct E as (i & Hi & Hn). apply H in Hi. lia.
Qed.

Section R.
  Variables (perm : nat -> list nat -> list nat) (D : dataset) (b : nat).
  Hypothesis Hperm : permutes perm.
  Hypothesis Hb : (0 < b <= length D)%nat.
  Let n := length D.
  Lemma all_request : forall s, exists s', sample_batch_indices perm n b IxAll s = (BOk (zs (seq 0 n)), s') /\ zs (seq 0 n) <> [] /\ names D (zs (seq 0 n)) D.
  Proof.
    intros s. eexists. split; [reflexivity|]. split; [|apply names_seq]. intros E. apply (f_equal (@length _)) in E.
    unfold zs in E. rewrite map_length, seq_length in E. cbn in E. unfold n in E. lia.
  Qed.
  Lemma one_request : forall s i, (- Z.of_nat n <= i < Z.of_nat n)%Z -> exists ps s',
    sample_batch_indices perm n b (IxOne i) s = (BOk [i], s') /\ names D [i] ps /\ (length [i] <> n \/ Permutation ps D).
  Proof.
    intros s i Hi. destruct (py_rows D [i]) as [ps|] eqn:E.
    - exists ps. eexists. split; [reflexivity|]. apply py_rows_names in E. split; [exact E|].
      destruct (Nat.eq_dec 1 n) as [E1|E1]; [|left; cbn; lia]. right.
      inversion E as [|? p ? ps' [_ E2] E3]; subst. inversion E3; subst. fold n in E2.
      destruct D as [|q [|q' D']]; cbn in E1; try discriminate. replace n with 1%nat in E2 by (unfold n; reflexivity).
      rewrite Z.mod_1_r in E2. cbn in E2. injection E2 as ->. reflexivity.
    - exfalso. apply py_rows_none in E. destruct E as (j & [<-|[]] & Hj). fold n in Hj. lia.
  Qed.
  Lemma batch_request : forall ixs, let s := snd (calls perm n b ixs sp_new) in exists l ps s',
    sample_batch_indices perm n b IxBatch s = (BOk l, s') /\ l <> [] /\ length l = b /\ names D l ps /\ (length l <> n \/ ps = D).
  Proof.
    intros ixs s. destruct (Nat.ltb_spec b n) as [Hlt|Hge].
    - destruct (sample_batch_indices perm n b IxBatch s) as [[l|] s'] eqn:E.
      + pose proof (batch_answers_last ixs (fst (calls perm n b ixs sp_new)) l (calls_length _ _ _ _ _)) as Hin.
        assert (Ea : batch_answers (ixs ++ [IxBatch]) (fst (calls perm n b ixs sp_new) ++ [BOk l]) = answers perm n b (ixs ++ [IxBatch])).
        { unfold answers. rewrite calls_app. fold s. rewrite E. reflexivity. }
        rewrite Ea in Hin. apply C25_batches_are_distinct_samples in Hin; [|exact Hperm|exact Hb].
        destruct Hin as (_ & Hl & Hr). destruct (names_of_range D l Hr) as [ps Hps].
        exists l, ps, s'. split; [reflexivity|]. split; [intros ->; cbn in Hl; lia|]. split; [exact Hl|]. split; [exact Hps|]. left. lia.
      + exfalso. unfold sample_batch_indices in E. destruct (b <? n)%nat; [destruct (draw_batch perm n b s)|]; discriminate.
    - destruct (all_request s) as (s' & E & Hne & Hn). exists (zs (seq 0 n)), D, s'. split; [|split; [exact Hne|split; [|split; [exact Hn|now right]]]].
      + unfold sample_batch_indices. replace (b <? n)%nat with false by (symmetry; apply Nat.ltb_ge; lia). exact E.
      + unfold zs. rewrite map_length, seq_length. unfold n in *. lia.
  Qed.
End R.
