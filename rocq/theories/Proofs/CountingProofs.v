From Coq Require Import List Bool Arith ZArith Lia.
From Verif.Model Require Import PyDict Messages Counting.
From Verif.Spec Require Import CountingSpec.
From Verif.Proofs Require Import PyDictProofs.
Import ListNotations.
Open Scope nat_scope.

Lemma shift_fold d l : forall s,
  (forall a, c_depth (fold_left (shift d) l s) a = (c_depth s a + d * Z.of_nat (count_occ Nat.eq_dec l a))%Z) /\
  c_count (fold_left (shift d) l s) = c_count s.
Proof.
  induction l as [|b l IH]; intro s; cbn [fold_left count_occ].
  - split; auto. intro a. lia.
  - destruct (IH (shift d s b)) as (A & B). split; [|rewrite B; reflexivity].
    intro a. rewrite A. unfold shift. cbn [c_depth]. destruct (Nat.eq_dec b a), (Nat.eqb_spec a b); subst; try congruence; lia.
Qed.

Lemma count_occ_exists a l : existsb (Nat.eqb a) l = (0 <? Z.of_nat (count_occ Nat.eq_dec l a))%Z.
Proof.
  induction l as [|b l IH]; simpl; auto. rewrite IH. destruct (Nat.eqb_spec a b), (Nat.eq_dec b a); subst; try congruence; simpl; auto.
Qed.

Lemma exec_spec p : forall s, (forall a, (0 <= c_depth s a)%Z) ->
  (forall a, c_depth (fst (exec p s)) a = c_depth s a) /\ snd (exec p s) = raises p /\
  forall a k, c_count (fst (exec p s)) a k = c_count s a k + counted a k (0 <? c_depth s a)%Z p.
Proof.
  induction p as [|a k n ok|p IHp q IHq|l p IHp| |p IHp q IHq]; intros s POS; cbn [exec raises counted].
  - repeat split; auto.
  - unfold do_call. destruct ok; simpl; [|repeat split; auto].
    destruct (Z.ltb_spec 0 (c_depth s a)); simpl; (split; [auto|split; [auto|]]); intros b j.
    + destruct (Nat.eqb_spec b a); simpl; [|lia]. subst. replace (0 <? c_depth s a)%Z with true by (symmetry; apply Z.ltb_lt; lia).
      rewrite andb_false_r. lia.
    + destruct (Nat.eqb_spec b a); simpl; [|lia]. subst. replace (0 <? c_depth s a)%Z with false by (symmetry; apply Z.ltb_ge; lia).
      rewrite andb_true_r. destruct (okind_eqb j k); simpl; lia.
  - destruct (IHp s POS) as (D1 & R1 & C1). destruct (exec p s) as [s1 r]. simpl in D1, R1, C1. subst r.
    destruct (raises p) eqn:R; simpl.
    + repeat split; auto. intros. rewrite C1. lia.
    + destruct (IHq s1) as (D2 & R2 & C2); [intro; rewrite D1; auto|].
      split; [intro; rewrite D2; auto|]. split; auto. intros. rewrite C2, C1, D1. lia.
  - destruct (shift_fold 1 l s) as (E1 & E2). fold (enter l s) in E1, E2.
    destruct (IHp (enter l s)) as (D1 & R1 & C1); [intro a; rewrite E1; specialize (POS a); lia|].
    destruct (exec p (enter l s)) as [s1 r]. simpl in D1, R1, C1.
    destruct (shift_fold (-1) l s1) as (F1 & F2). fold (leave l s1) in F1, F2. simpl.
    split; [intro a; rewrite F1, D1, E1; lia|]. split; auto.
    intros a k. rewrite F2, C1, E2. f_equal. f_equal. rewrite E1, count_occ_exists. specialize (POS a).
    destruct (Z.ltb_spec 0 (c_depth s a)), (Z.ltb_spec 0 (Z.of_nat (count_occ Nat.eq_dec l a)));
    match goal with |- (0 <? ?x)%Z = _ => destruct (Z.ltb_spec 0 x) end; simpl; auto; lia.
  - repeat split; auto.
  - destruct (IHp s POS) as (D1 & R1 & C1). destruct (exec p s) as [s1 r]. simpl in D1, R1, C1. subst r.
    destruct (raises p) eqn:R; simpl.
    + destruct (IHq s1) as (D2 & R2 & C2); [intro; rewrite D1; auto|].
      split; [intro; rewrite D2; auto|]. split; auto. intros. rewrite C2, C1, D1. lia.
    + repeat split; auto. intros. rewrite C1. lia.
Qed.

(** flat *)
Lemma open_dset a i l d : dget Nat.eqb d i = None -> open_listings a (dset Nat.eqb d i l) = open_listings a d + count_occ Nat.eq_dec l a.
Proof.
  induction d as [|[j m] d IH]; simpl; intro H; [lia|].
  destruct (Nat.eqb i j) eqn:E; [discriminate|]. simpl. rewrite IH by auto. lia.
Qed.
Lemma open_dpop a i l d : NoDup (dkeys d) -> dget Nat.eqb d i = Some l ->
  open_listings a d = open_listings a (dpop Nat.eqb d i) + count_occ Nat.eq_dec l a.
Proof.
  unfold dpop. induction d as [|[j m] d IH]; simpl; intros ND H; [discriminate|]. inversion ND; subst.
  destruct (Nat.eqb_spec i j); simpl.
  - injection H as ->. subst j. lia.
  - rewrite (IH H3 H). lia.
Qed.
Definition finv (s : fstate) : Prop := NoDup (dkeys (f_open s)) /\ forall a, c_depth (f_c s) a = Z.of_nat (open_listings a (f_open s)).
Lemma finv_step s o : finv s -> finv (f_step s o).
Proof.
  intros (ND & D). destruct o as [i l|i|a k n ok]; simpl.
  - unfold dmem. destruct (dget Nat.eqb (f_open s) i) eqn:E; [split; auto|]. split; simpl.
    + apply (NoDup_dset _ _ _ Nat.eqb_spec); auto.
    + intro a. unfold enter. destruct (shift_fold 1 l (f_c s)) as (-> & _). rewrite open_dset, D by auto. lia.
  - destruct (dget Nat.eqb (f_open s) i) as [l|] eqn:E; [|split; auto]. split; simpl.
    + apply NoDup_dpop; auto.
    + intro a. unfold leave. destruct (shift_fold (-1) l (f_c s)) as (-> & _). rewrite D, (open_dpop a i l (f_open s)) by auto. lia.
  - split; simpl; auto. intro b. rewrite <- D. unfold do_call. destruct ok; simpl; auto. destruct (0 <? c_depth (f_c s) a)%Z; auto.
Qed.
Lemma finv_run l : finv (f_run l).
Proof.
  unfold f_run. assert (I : finv (mkF c_init [])) by (split; [constructor|auto]).
  revert I. generalize (mkF c_init []). induction l as [|o l IH]; intros s I; simpl; auto. apply IH. now apply finv_step.
Qed.
