From Coq Require Import Reals List Bool Arith ZArith Lia Lra Permutation Sorted String.
From Verif.Model Require Import PyDict History Vec Network Metrics Aggregate.
From Verif.Spec Require Import AggregateSpec.
From Verif.Proofs Require Import PyDictProofs EmpiricalProofs MetricsProofs MetricsPipeline.
Import ListNotations.
Local Open Scope R_scope.

(** ** groupby *)
Section Group.
  Context {K V : Type} (keqb : K -> K -> bool) (keqb_spec : forall a b, reflect (a = b) (keqb a b)).
  Definition of_key (k : K) (l : list (K * V)) : list V := map snd (filter (fun p => keqb k (fst p)) l).
  Lemma of_key_app k l l' : of_key k (l ++ l') = of_key k l ++ of_key k l'.
  Proof. unfold of_key. now rewrite filter_app, map_app. Qed.
  Lemma of_key_In k l v : In v (of_key k l) <-> In (k, v) l.
  Proof.
    unfold of_key. rewrite in_map_iff. split.
    - intros ((k' & v') & <- & I). apply filter_In in I. destruct I as (I & E). cbn in E. destruct (keqb_spec k k'); [subst; exact I|discriminate].
    - intro I. exists (k, v). split; [reflexivity|]. apply filter_In. split; [exact I|]. cbn. destruct (keqb_spec k k); congruence.
  Qed.
  Lemma group_get l : NoDup (dkeys (group keqb l)) /\
    forall k, dget keqb (group keqb l) k = match of_key k l with [] => None | vs => Some vs end.
  Proof.
    unfold group. induction l as [|(k0 & v0) l IH] using rev_ind; [split; [constructor|reflexivity]|].
    rewrite fold_left_app. cbn [fold_left fst snd].
    match type of IH with NoDup (dkeys ?x) /\ _ => set (d := x) in * end. destruct IH as (ND & G).
    split; [apply NoDup_dset; auto|]. intro k. rewrite (dget_dset _ _ keqb keqb_spec), of_key_app. unfold of_key at 2. cbn [filter fst].
    destruct (keqb_spec k0 k) as [<-|NE].
    - destruct (keqb_spec k0 k0) as [_|]; [|congruence]. cbn [map snd]. rewrite G. destruct (of_key k0 l); reflexivity.
    - destruct (keqb_spec k k0) as [E|_]; [congruence|]. cbn [map]. rewrite app_nil_r. apply G.
  Qed.
  Lemma group_In l k vs : In (k, vs) (group keqb l) <-> vs = of_key k l /\ vs <> [].
  Proof.
    destruct (group_get l) as (ND & G). split.
    - intro I. apply (dget_NoDup _ _ keqb keqb_spec) in I; [|exact ND]. rewrite G in I. destruct (of_key k l); [discriminate|]. injection I as <-. split; [reflexivity|discriminate].
    - intros (-> & NE). apply (dget_In _ _ keqb keqb_spec). rewrite G. destruct (of_key k l); [contradiction|reflexivity].
  Qed.
  Lemma group_keys (l : list (K * V)) : NoDup (map fst (group keqb l)).
  Proof. apply group_get. Qed.
End Group.
Lemma pair_eqb_spec {A B} ea eb : (forall a b : A, reflect (a = b) (ea a b)) -> (forall a b : B, reflect (a = b) (eb a b)) ->
  forall p q : A * B, reflect (p = q) (pair_eqb ea eb p q).
Proof.
  intros HA HB (a & b) (a' & b'). unfold pair_eqb. cbn. destruct (HA a a'); destruct (HB b b'); cbn; constructor; congruence.
Qed.

(** ** statistics *)
Lemma finites_map rs : finites (map Fin rs) = Some rs.
Proof. induction rs as [|r rs IH]; [reflexivity|]. cbn [map finites]. now rewrite IH. Qed.
Lemma finites_perm l rs : Permutation l (map Fin rs) -> exists rs', l = map Fin rs' /\ Permutation rs' rs.
Proof.
  intro P. assert (M : exists rs', l = map Fin rs').
  { assert (H : forall v, In v l -> exists r, v = Fin r).
    { intros v I. apply (Permutation_in _ P) in I. apply in_map_iff in I. destruct I as (r & <- & _). eauto. }
    clear P. induction l as [|v l IH]; [exists []; reflexivity|]. destruct (H v (or_introl eq_refl)) as (r & ->).
    destruct IH as (rs' & ->); [intros; apply H; now right|]. exists (r :: rs'). reflexivity. }
  destruct M as (rs' & ->). exists rs'. split; [reflexivity|].
  apply (Permutation_map (fun v => match v with Fin r => r | _ => 0 end)) in P. rewrite !map_map in P. now rewrite !map_id in P.
Qed.
Lemma ravg_perm l l' : Permutation l l' -> ravg l = ravg l'.
Proof. intro P. unfold ravg. now rewrite (rsum_perm _ _ P), (Permutation_length P). Qed.
Lemma rstd_perm d l l' : Permutation l l' -> rstd d l = rstd d l'.
Proof.
  intro P. unfold rstd. rewrite (ravg_perm _ _ P), (Permutation_length P). do 2 f_equal. apply rsum_perm. now apply Permutation_map.
Qed.
Lemma fold_min : forall l x, is_min (x :: l) (fold_left Rmin l x).
Proof.
  induction l as [|y l IH]; intro x; cbn [fold_left]; [split; [now left|intros z [<-|[]]; lra]|].
  destruct (IH (Rmin x y)) as (I & M). split.
  - destruct I as [E|I]; [|right; now right]. rewrite <- E. unfold Rmin. destruct (Rle_dec x y); [now left|right; now left].
  - intros z [<-|[<-|J]].
    + apply Rle_trans with (Rmin x y); [apply M; now left|apply Rmin_l].
    + apply Rle_trans with (Rmin x y); [apply M; now left|apply Rmin_r].
    + apply M. now right.
Qed.
Lemma fold_maxr : forall l x, is_max (x :: l) (fold_left Rmax l x).
Proof.
  induction l as [|y l IH]; intro x; cbn [fold_left]; [split; [now left|intros z [<-|[]]; lra]|].
  destruct (IH (Rmax x y)) as (I & M). split.
  - destruct I as [E|I]; [|right; now right]. rewrite <- E. unfold Rmax. destruct (Rle_dec x y); [right; now left|now left].
  - intros z [<-|[<-|J]].
    + apply Rle_trans with (Rmax x y); [apply Rmax_l|apply M; now left].
    + apply Rle_trans with (Rmax x y); [apply Rmax_r|apply M; now left].
    + apply M. now right.
Qed.
Lemma rmin_spec l : l <> [] -> is_min l (rmin l).
Proof. destruct l; [contradiction|]. intros _. apply fold_min. Qed.
Lemma rmax_spec l : l <> [] -> is_max l (rmax l).
Proof. destruct l; [contradiction|]. intros _. apply fold_maxr. Qed.
Lemma is_min_unique l a b : is_min l a -> is_min l b -> a = b.
Proof. intros (I & M) (I' & M'). pose proof (M b I'). pose proof (M' a I). lra. Qed.
Lemma is_max_unique l a b : is_max l a -> is_max l b -> a = b.
Proof. intros (I & M) (I' & M'). pose proof (M b I'). pose proof (M' a I). lra. Qed.
Lemma is_min_perm l l' m : Permutation l l' -> is_min l m -> is_min l' m.
Proof. intros P (I & M). split; [now apply (Permutation_in _ P)|]. intros x J. apply M. now apply (Permutation_in _ (Permutation_sym P)). Qed.
Lemma is_max_perm l l' m : Permutation l l' -> is_max l m -> is_max l' m.
Proof. intros P (I & M). split; [now apply (Permutation_in _ P)|]. intros x J. apply M. now apply (Permutation_in _ (Permutation_sym P)). Qed.
Lemma perm_nil {A} (l l' : list A) : Permutation l l' -> l <> [] -> l' <> [].
Proof. intros P NE ->. apply Permutation_sym, Permutation_nil in P. contradiction. Qed.
Lemma rmin_perm l l' : Permutation l l' -> rmin l = rmin l'.
Proof.
  intro P. destruct l as [|x l]; [apply Permutation_nil in P; now subst|].
  apply (is_min_unique l'); [apply (is_min_perm _ _ _ P)|]; apply rmin_spec; [discriminate|apply (perm_nil _ _ P); discriminate].
Qed.
Lemma rmax_perm l l' : Permutation l l' -> rmax l = rmax l'.
Proof.
  intro P. destruct l as [|x l]; [apply Permutation_nil in P; now subst|].
  apply (is_max_unique l'); [apply (is_max_perm _ _ _ P)|]; apply rmax_spec; [discriminate|apply (perm_nil _ _ P); discriminate].
Qed.
Lemma rinsert_perm x l : Permutation (x :: l) (rinsert x l).
Proof. induction l as [|y l IH]; [reflexivity|]. cbn [rinsert]. destruct (Rle_dec x y); [reflexivity|]. rewrite perm_swap. now apply perm_skip. Qed.
Lemma rsort_perm l : Permutation l (rsort l).
Proof. induction l as [|x l IH]; [reflexivity|]. cbn. rewrite <- rinsert_perm. now apply perm_skip. Qed.
Lemma rinsert_sorted x l : Sorted Rle l -> Sorted Rle (rinsert x l).
Proof.
  induction 1 as [|y l S IH H]; [repeat constructor|]. cbn [rinsert]. destruct (Rle_dec x y); [constructor; [constructor; auto|constructor; auto]|].
  constructor; [exact IH|]. destruct l as [|z l]; cbn; [constructor; lra|]. destruct (Rle_dec x z); constructor; [lra|now inversion H].
Qed.
Lemma rsort_sorted l : Sorted Rle (rsort l).
Proof. induction l; [constructor|]. now apply rinsert_sorted. Qed.
Lemma rmedian_spec l : is_median l (rmedian l).
Proof.
  exists (rsort l). split; [apply rsort_perm|]. split; [apply rsort_sorted|]. unfold rmedian. split; intros k E; rewrite E.
  - replace (Nat.even (2 * k + 1)) with false; [|rewrite Nat.even_add, Nat.even_mul; reflexivity].
    replace (2 * k + 1)%nat with (1 + k * 2)%nat by lia. rewrite Nat.div_add by lia. reflexivity.
  - replace (Nat.even (2 * k + 2)) with true; [|rewrite Nat.even_add, Nat.even_mul; reflexivity].
    replace (2 * k + 2)%nat with ((k + 1) * 2)%nat by lia. rewrite Nat.div_mul by lia. replace (k + 1 - 1)%nat with k by lia. reflexivity.
Qed.
Lemma sorted_unique : forall l l', Permutation l l' -> Sorted Rle l -> Sorted Rle l' -> l = l'.
Proof.
  assert (H : forall l, Sorted Rle l -> StronglySorted Rle l) by (intros l; apply Sorted_StronglySorted; intros a b c; lra).
  intros l l' P S S'. apply H in S. apply H in S'. clear H. revert l' P S'. induction S as [|x l S IH F]; intros l' P S'.
  - apply Permutation_nil in P. now subst.
  - destruct S' as [|y l' S' F']; [apply Permutation_sym, Permutation_nil in P; discriminate|].
    assert (x = y).
    { rewrite Forall_forall in F, F'. destruct (Permutation_in y (Permutation_sym P) (or_introl eq_refl)) as [E|I]; [auto|].
      destruct (Permutation_in x P (or_introl eq_refl)) as [E|I']; [auto|]. specialize (F y I). specialize (F' x I'). lra. }
    subst y. f_equal. apply IH; [eapply Permutation_cons_inv; eauto|exact S'].
Qed.
Lemma rmedian_perm l l' : Permutation l l' -> rmedian l = rmedian l'.
Proof.
  intro P. unfold rmedian. rewrite (Permutation_length P).
  replace (rsort l) with (rsort l'); [reflexivity|]. apply sorted_unique; [|apply rsort_sorted|apply rsort_sorted].
  rewrite <- (rsort_perm l'), <- (rsort_perm l). now apply Permutation_sym.
Qed.
Lemma mean_between l a b : l <> [] -> is_min l a -> is_max l b -> a <= mean l <= b.
Proof.
  intros NE (_ & A) (_ & B). assert (P : 0 < INR (List.length l)) by (apply lt_0_INR; destruct l; [contradiction|cbn; lia]).
  assert (S : forall l, (forall x, In x l -> a <= x) -> INR (List.length l) * a <= rsum l).
  { induction l0 as [|x l0 IH]; intro H; [cbn [List.length INR]; rewrite rsum_nil; lra|]. cbn [List.length]. rewrite rsum_cons, S_INR.
    pose proof (H x (or_introl eq_refl)). pose proof (IH (fun y I => H y (or_intror I))). lra. }
  assert (S' : forall l, (forall x, In x l -> x <= b) -> rsum l <= INR (List.length l) * b).
  { induction l0 as [|x l0 IH]; intro H; [cbn [List.length INR]; rewrite rsum_nil; lra|]. cbn [List.length]. rewrite rsum_cons, S_INR.
    pose proof (H x (or_introl eq_refl)). pose proof (IH (fun y I => H y (or_intror I))). lra. }
  unfold mean. split; [apply (Rmult_le_reg_r (INR (List.length l))); auto|apply (Rmult_le_reg_r (INR (List.length l))); auto];
    unfold Rdiv; rewrite Rmult_assoc, Rinv_l, Rmult_1_r by lra; [rewrite Rmult_comm|rewrite (Rmult_comm b)]; auto.
Qed.
