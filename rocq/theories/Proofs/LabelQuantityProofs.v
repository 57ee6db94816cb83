From Coq Require Import List Bool Arith ZArith Permutation Lia.
From Verif.Model Require Import PyDict Schemes Partition LabelFlow.
From Verif.Spec Require Import PartitionSpec.
From Verif.Proofs Require Import SortProofs PartitionProofs SplitProofs LabelFlowProofs.
Import ListNotations.
Open Scope nat_scope.

Section LQ.
  Context {L : Type} (leqb : L -> L -> bool) (rle : L -> L -> bool).
  Variable perm : list nat -> nat -> list nat.
  Hypothesis Hperm : perm_ok perm.
  Hypothesis Heq : is_eq leqb.

  Definition getl (rem : list (L * list nat)) (l : L) : list nat := match dget leqb rem l with Some is => is | None => [] end.
  Lemma memb_spec l ls : memb leqb l ls = true <-> In l ls.
  Proof.
    unfold memb. rewrite existsb_exists. split.
    - intros (x & I & E). apply Heq in E. now subst.
    - intro I. exists l. split; auto. now apply Heq.
  Qed.

  Lemma split_from_in {A} (xs : list A) counts : forall s p x, In x (nth p (split_from xs s counts) []) -> In x xs /\ 0 < nth p counts 0.
  Proof.
    induction counts as [|c cs IH]; intros s p x I; simpl in I.
    - destruct p; destruct I.
    - destruct p; simpl in *.
      + split; [|destruct c; [simpl in I; destruct I|lia]]. apply in_firstn in I. rewrite <- (firstn_skipn s xs). apply in_or_app. auto.
      + eapply IH; eauto.
  Qed.
  (** ** filling *)
  Lemma fill_spec rem np : forall allocs parts, length parts = np ->
    Forall (fun lc => length (snd lc) = np /\ list_sum (snd lc) <= length (getl rem (fst lc))) allocs ->
    let res := fill leqb allocs rem parts in
    length res = np /\
    (forall p, p < np -> length (nth p res []) = length (nth p parts []) + list_sum (map (fun lc => nth p (snd lc) 0) allocs)) /\
    Permutation (concat res) (concat parts ++ concat (map (fun lc => firstn (list_sum (snd lc)) (getl rem (fst lc))) allocs)) /\
    (forall p i, In i (nth p res []) -> In i (nth p parts []) \/ exists l cs, In (l, cs) allocs /\ In i (getl rem l) /\ 0 < nth p cs 0).
  Proof.
    induction allocs as [|[l cs] allocs IH]; intros parts LP F; simpl.
    - rewrite app_nil_r. repeat split; auto; intros; lia.
    - inversion F as [|? ? [F1 F2] F3]; subst. simpl in F1, F2. fold (getl rem l).
      set (sl := split_by_counts (getl rem l) cs). assert (LS : length sl = length parts) by (unfold sl, split_by_counts; rewrite split_from_length; lia).
      destruct (IH (extend_all parts sl) (extend_all_length _ _) F3) as (A & B & C & D).
      split; [exact A|]. split; [|split].
      + intros p Hp. rewrite B, extend_all_nth, app_length by lia.
        rewrite <- (lengths_nth sl). unfold sl, split_by_counts. rewrite split_from_lengths by (simpl; lia). lia.
      + rewrite C, extend_all_concat by lia. rewrite <- app_assoc. apply Permutation_app_head. apply Permutation_app_tail.
        unfold sl, split_by_counts. rewrite split_from_concat. reflexivity.
      + intros p i I. apply D in I. destruct I as [I|(l' & cs' & I & J)].
        * rewrite extend_all_nth in I by lia. apply in_app_or in I. destruct I as [I|I]; auto. right. exists l, cs.
          apply split_from_in in I. tauto.
        * right. exists l', cs'. tauto.
  Qed.

  Lemma nth_combine_in {A B} (xs : list A) (ys : list B) x y da db : length xs = length ys -> In (x, y) (combine xs ys) ->
    exists i, i < length xs /\ nth i xs da = x /\ nth i ys db = y.
  Proof.
    intros E I. apply (In_nth _ _ (da, db)) in I. destruct I as (i & Hi & N). rewrite combine_length in Hi.
    rewrite combine_nth in N by auto. injection N as N1 N2. exists i. repeat split; auto; lia.
  Qed.
  Lemma submset_concat_filter {A B} (f : A -> list B) (q : A -> bool) l : submset (concat (map f (filter q l))) (concat (map f l)).
  Proof.
    induction l as [|x l IH]; simpl; [apply submset_refl|]. destruct (q x); simpl.
    - apply submset_app; auto. apply submset_refl.
    - destruct IH as [z P]. exists (z ++ f x). rewrite app_assoc, P. apply Permutation_app_comm.
  Qed.
  Lemma concat_pointwise {A B} (f g : A -> list B) l : (forall x, In x l -> submset (f x) (g x)) -> submset (concat (map f l)) (concat (map g l)).
  Proof. induction l; simpl; intro H; [apply submset_refl|]. apply submset_app; auto. Qed.

  Section Fill.
    Variables (labels : list L) (groups : list (list L)) (pcounts : list nat) (imax : Z).
    Hypothesis Hi : (0 < imax)%Z.
    Hypothesis HG : length groups = length pcounts.
    Let d := indices_by_label leqb labels.
    Let rem0 := filter (fun it : L * list nat => existsb (memb leqb (fst it)) groups) d.
    Let rem := map (fun jit : nat * (L * list nat) => (fst (snd jit), shuffled perm [1; fst jit] (snd (snd jit))))
                   (combine (seq 0 (length rem0)) rem0).
    Let ls := sorted rle (map fst rem).
    Let allowed i p := match nth_error ls i, nth_error groups p with Some l, Some g => memb leqb l g | _, _ => false end.

    Lemma rem_keys : map fst rem = map fst rem0.
    Proof.
      unfold rem. rewrite map_map. cbn [fst]. rewrite <- (map_map snd fst). rewrite map_snd_combine; auto. now rewrite seq_length.
    Qed.
    Lemma rem0_nd : NoDup (map fst rem0).
    Proof.
      unfold rem0. pose proof (ibl_keys leqb rle Heq labels) as N. fold d in N. revert N. generalize d as l.
      induction l as [|x l IH]; simpl; intro N; auto. inversion N; subst.
      destruct (existsb (memb leqb (fst x)) groups); auto. simpl. constructor; auto. intro I. apply H1.
      apply in_map_iff in I. destruct I as (y & E & I). apply filter_In in I. apply in_map_iff. exists y. tauto.
    Qed.
    Lemma ls_nd : NoDup ls.
    Proof. unfold ls. eapply Permutation_NoDup; [symmetry; apply sorted_perm|]. rewrite rem_keys. apply rem0_nd. Qed.
    Lemma ls_in l : In l ls <-> In l labels /\ exists g, In g groups /\ In l g.
    Proof.
      unfold ls. split.
      - intro I. apply (Permutation_in _ (sorted_perm _ _)) in I. rewrite rem_keys in I. apply in_map_iff in I.
        destruct I as ([k is] & <- & I). apply filter_In in I. destruct I as [I J]. apply (ibl_in leqb rle Heq) in I. cbn [fst] in *. split; [tauto|].
        apply existsb_exists in J. destruct J as (g & A & B). exists g. split; auto. now apply memb_spec.
      - intros [I (g & A & B)]. apply (Permutation_in _ (Permutation_sym (sorted_perm _ _))). rewrite rem_keys.
        apply (ibl_total leqb Heq) in I. apply in_map_iff. exists (l, idx leqb labels l). split; auto.
        apply filter_In. split; auto. cbn [fst]. apply existsb_exists. exists g. split; auto. now apply memb_spec.
    Qed.
    Lemma rem_get l : In l ls -> Permutation (getl rem l) (idx leqb labels l).
    Proof.
      intro I. assert (J : In l (map fst rem)) by (apply (Permutation_in _ (sorted_perm rle _)); exact I).
      apply in_map_iff in J. destruct J as ([k is] & E & J). cbn [fst] in E. subst k.
      unfold getl. rewrite (dget_in leqb rle Heq rem l is); auto; [|rewrite rem_keys; apply rem0_nd].
      unfold rem in J. apply in_map_iff in J. destruct J as ([j [k is0]] & E & J). cbn [fst snd] in E. injection E as -> <-.
      apply in_combine_r in J. apply filter_In in J. destruct J as [J _]. apply (ibl_in leqb rle Heq) in J. destruct J as [-> _].
      now apply shuffled_perm.
    Qed.
    Lemma sizeof_get l : In l ls -> sizeof leqb rem l = samples_of leqb labels l.
    Proof.
      intro I. pose proof (Permutation_length (rem_get l I)) as E. unfold getl in E. unfold sizeof. rewrite <- (idx_length leqb); auto.
      destruct (dget leqb rem l); auto.
    Qed.
    Lemma getl_sub : submset (concat (map (getl rem) ls)) (seq 0 (length labels)).
    Proof.
      apply (submset_trans _ (concat (map (idx leqb labels) ls))).
      { apply concat_pointwise. intros l I. now apply submset_perm, rem_get. }
      apply (submset_trans _ (concat (map (idx leqb labels) (map fst rem0)))).
      { apply submset_perm. rewrite <- !flat_map_concat_map. rewrite <- rem_keys. unfold ls. now rewrite sorted_perm. }
      eapply submset_trans; [|apply submset_perm, (ibl_perm leqb labels)]. fold d.
      rewrite map_map.
      eapply submset_trans; [|apply (submset_concat_filter snd (fun it : L * list nat => existsb (memb leqb (fst it)) groups) d)].
      apply concat_pointwise. intros [l is] I. apply filter_In in I. destruct I as [I _]. apply (ibl_in leqb rle Heq) in I. destruct I as [-> _].
      apply submset_refl.
    Qed.
    Lemma allowed_true i p : allowed i p = true <-> exists l, nth_error ls i = Some l /\ In l (nth p groups []).
    Proof.
      unfold allowed. split.
      - destruct (nth_error ls i) as [l|]; [|discriminate]. destruct (nth_error groups p) as [g|] eqn:G; [|discriminate].
        intro M. apply memb_spec in M. exists l. split; auto. now rewrite (nth_error_nth _ _ [] G).
      - intros (l & -> & I). destruct (nth_error groups p) as [g|] eqn:G.
        + rewrite (nth_error_nth _ _ [] G) in I. now apply memb_spec.
        + apply nth_error_None in G. rewrite nth_overflow in I by auto. destruct I.
    Qed.

    Let szs := map (sizeof leqb rem) ls.
    Lemma fill_sound al : feasible szs allowed pcounts al ->
      respects labels (fun p l => In l (nth p groups [])) pcounts
        (shuffle_each perm [2] (fill leqb (combine ls al) rem (repeat [] (length pcounts)))).
    Proof.
      intros (A & B & C & D & E).
      assert (LS : length szs = length ls) by (unfold szs; apply map_length). rewrite LS in *.
      assert (SZ : forall i l, nth_error ls i = Some l -> nth i szs 0 = length (getl rem l)).
      { intros i l N. assert (Hl : i < length ls) by (apply nth_error_Some; congruence).
        unfold szs. rewrite (nth_map_in _ _ _ l) by auto. rewrite (nth_error_nth _ _ l N). unfold sizeof, getl. destruct (dget leqb rem l); reflexivity. }
      assert (F : Forall (fun lc => length (snd lc) = length pcounts /\ list_sum (snd lc) <= length (getl rem (fst lc))) (combine ls al)).
      { apply Forall_forall. intros [l cs] I. cbn [fst snd].
        apply (nth_combine_in ls al l cs l []) in I; [|now rewrite A]. destruct I as (i & Hil & N1 & N2).
        split; [rewrite <- N2; auto|]. rewrite <- N2. etransitivity; [apply D; auto|].
        rewrite (SZ i l); auto. rewrite <- N1. now apply nth_error_nth'. }
      destruct (fill_spec rem (length pcounts) (combine ls al) (repeat [] (length pcounts)) ltac:(apply repeat_length) F) as (P & Q & R & S).
      set (res := fill leqb (combine ls al) rem (repeat [] (length pcounts))) in *.
      destruct (shuffle_each_spec perm [2] res Hperm) as [SE1 SE2].
      destruct (shuffle_each_concat perm [2] res Hperm) as [SC SL].
      assert (LEN : map (@length nat) res = pcounts).
      { apply nth_ext0; [rewrite map_length; auto|]. intros p Hp. rewrite map_length in Hp. rewrite lengths_nth, Q by lia.
        rewrite nth_repeat_nil. simpl. rewrite <- (E p) by lia. f_equal.
        rewrite <- (map_map snd (fun cs => nth p cs 0)). rewrite map_snd_combine; auto. }
      split; [now rewrite SL|]. split.
      - apply disjoint_of_submset. eapply submset_trans; [apply submset_perm; rewrite SC, R; reflexivity|].
        replace (concat (repeat [] (length pcounts))) with (@nil nat) by (clear; induction (length pcounts); simpl; auto). simpl.
        eapply submset_trans; [|apply getl_sub].
        eapply submset_trans; [apply (concat_pointwise _ (fun lc => getl rem (fst lc))); intros; apply submset_firstn|].
        rewrite <- (map_map fst (getl rem)), map_fst_combine by auto. apply submset_refl.
      - intros p i l I N. apply (Permutation_in _ (SE2 p)) in I. apply S in I. destruct I as [I|(l' & cs & I & J & K)].
        + rewrite nth_repeat_nil in I. destruct I.
        + apply (nth_combine_in ls al l' cs l' []) in I; [|now rewrite A]. destruct I as (k & Hk & N1 & N2).
          assert (NE : nth_error ls k = Some l') by (rewrite <- N1; now apply nth_error_nth').
          assert (l' = l).
          { assert (IL : In l' ls) by (eapply nth_error_In; eauto). apply (Permutation_in _ (rem_get l' IL)) in J.
            apply filter_In in J. destruct J as [_ J]. unfold has_label in J. rewrite N in J. now apply Heq in J. }
          subst l'. destruct (Nat.lt_ge_cases p (length pcounts)) as [Hp|Hp].
          * destruct (allowed k p) eqn:AL.
            -- apply allowed_true in AL. destruct AL as (l2 & N3 & IG). congruence.
            -- specialize (C k p Hk Hp AL). rewrite N2 in C. lia.
          * rewrite nth_overflow in K; [lia|]. rewrite <- N2, B; auto.
    Qed.
    Lemma lc_concat l ps : label_count leqb labels l (concat ps) = list_sum (map (label_count leqb labels l) ps).
    Proof. induction ps; simpl; auto. rewrite label_count_app. now rewrite IHps. Qed.
    Lemma lc_seq l : label_count leqb labels l (seq 0 (length labels)) = samples_of leqb labels l.
    Proof. rewrite <- (idx_length leqb). reflexivity. Qed.
    Lemma lc_submset l a b : submset a b -> label_count leqb labels l a <= label_count leqb labels l b.
    Proof. intros [z P]. rewrite <- (label_count_perm leqb labels l _ _ P), label_count_app. lia. Qed.
    Lemma disjoint_submset ps : disjoint_in_range (length labels) ps -> submset (concat ps) (seq 0 (length labels)).
    Proof.
      intros [N R]. revert N R. generalize (concat ps) (length labels). clear. intros l n N R.
      exists (filter (fun i => negb (existsb (Nat.eqb i) l)) (seq 0 n)). apply NoDup_Permutation.
      - induction l as [|x l IH]; simpl; [apply NoDup_filter, seq_NoDup|].
        inversion N; subst. apply (Permutation_NoDup (l := x :: (l ++ filter (fun i => negb ((i =? x) || existsb (Nat.eqb i) l)) (seq 0 n)))); auto.
        assert (NF : NoDup (l ++ filter (fun i => negb ((i =? x) || existsb (Nat.eqb i) l)) (seq 0 n))).
        { specialize (IH H2 (fun i I => R i (or_intror I))). 
          assert (SUB : forall q, NoDup (l ++ filter (fun i => negb (existsb (Nat.eqb i) l)) q) -> NoDup (l ++ filter (fun i => negb ((i =? x) || existsb (Nat.eqb i) l)) q)).
          { intros q. induction q as [|y q IHq]; simpl; auto. intro NQ. destruct (existsb (Nat.eqb y) l) eqn:X; simpl in *.
            - rewrite orb_true_r. simpl. auto.
            - rewrite orb_false_r. apply NoDup_remove in NQ. destruct NQ as [NQ1 NQ2]. destruct (y =? x); simpl; auto.
              apply (Permutation_NoDup (l := y :: (l ++ filter (fun i => negb ((i =? x) || existsb (Nat.eqb i) l)) q))); [apply Permutation_middle|].
              constructor; auto. intro I. apply NQ2. apply in_app_or in I. apply in_or_app. destruct I as [I|I]; auto. right.
              apply filter_In in I. apply filter_In. destruct I as [I J]. split; auto. destruct (existsb (Nat.eqb y) l); auto. }
          apply SUB. auto. }
        constructor; auto. intro I. apply in_app_or in I. destruct I as [I|I]; auto. apply filter_In in I. destruct I as [_ I].
        rewrite Nat.eqb_refl in I. discriminate.
      - apply seq_NoDup.
      - intro x. rewrite in_app_iff, filter_In, in_seq. split.
        + intros [I|I]; [|lia]. apply R in I. lia.
        + intro I. destruct (existsb (Nat.eqb x) l) eqn:X.
          * left. apply existsb_exists in X. destruct X as (y & J & E). apply Nat.eqb_eq in E. now subst.
          * right. split; auto.
    Qed.
    Lemma count_once (ls' : list L) i : NoDup ls' -> forall l, nth_error labels i = Some l -> In l ls' ->
      list_sum (map (fun k => label_count leqb labels k [i]) ls') = 1.
    Proof.
      intros N l E I. unfold label_count. simpl. rewrite E.
      induction N as [|x ls' NI N IH]; [destruct I|]. simpl. destruct (leqb x l) eqn:X.
      - apply Heq in X. subst x. simpl. f_equal. clear -NI Heq. induction ls' as [|y t IH]; simpl; auto.
        destruct (leqb y l) eqn:Y; [apply Heq in Y; subst; simpl in NI; tauto|]. simpl. apply IH. simpl in NI. tauto.
      - simpl. apply IH. destruct I as [->|I]; auto. rewrite (proj2 (Heq l l) eq_refl) in X. discriminate.
    Qed.
    Lemma count_all (ls' : list L) part : NoDup ls' -> (forall i, In i part -> exists l, nth_error labels i = Some l /\ In l ls') ->
      list_sum (map (fun k => label_count leqb labels k part) ls') = length part.
    Proof.
      intros N. induction part as [|i part IH]; intro H.
      - simpl. clear. induction ls'; simpl; auto.
      - change (i :: part) with ([i] ++ part). rewrite (map_ext _ (fun k => label_count leqb labels k [i] + label_count leqb labels k part)) by (intro; apply label_count_app).
        rewrite list_sum_map_add, IH by (intros; apply H; simpl; auto). destruct (H i (or_introl eq_refl)) as (l & E & I).
        rewrite (count_once ls' i N l E I). simpl. lia.
    Qed.
    Lemma fill_complete ps : respects labels (fun p l => In l (nth p groups [])) pcounts ps -> exists al, feasible szs allowed pcounts al.
    Proof.
      intros (LEN & DIS & RES).
      assert (LP : length ps = length pcounts) by (rewrite <- LEN; now rewrite map_length).
      exists (map (fun l => map (label_count leqb labels l) ps) ls).
      assert (LS : length szs = length ls) by (unfold szs; apply map_length).
      assert (ROW : forall i l, nth_error ls i = Some l -> nth i (map (fun l => map (label_count leqb labels l) ps) ls) [] = map (label_count leqb labels l) ps).
      { intros i l N. assert (Hl : i < length ls) by (apply nth_error_Some; congruence).
        rewrite (nth_map_in _ _ _ l) by auto. now rewrite (nth_error_nth _ _ l N). }
      assert (GET : forall i, i < length szs -> exists l, nth_error ls i = Some l /\ In l ls).
      { intros i Hl. rewrite LS in Hl. destruct (nth_error ls i) as [l|] eqn:N; [|apply nth_error_None in N; lia].
        exists l. split; auto. eapply nth_error_In; eauto. }
      split; [now rewrite map_length|]. split; [|split; [|split]].
      - intros i Hl. destruct (GET i Hl) as (l & N & I). rewrite (ROW i l N), map_length. auto.
      - intros i p Hl Hp NA. destruct (GET i Hl) as (l & N & I). rewrite (ROW i l N). rewrite (nth_map_in _ _ _ []) by lia.
        unfold label_count. destruct (filter (fun i0 => match nth_error labels i0 with Some b => leqb l b | None => false end) (nth p ps [])) as [|x t] eqn:FE; auto. exfalso.
        assert (J : In x (filter (fun i0 => match nth_error labels i0 with Some b => leqb l b | None => false end) (nth p ps []))) by (rewrite FE; simpl; auto).
        apply filter_In in J. destruct J as [J1 J2]. destruct (nth_error labels x) as [b|] eqn:NX; [|discriminate].
        apply Heq in J2. subst b. pose proof (RES p x l J1 NX) as G.
        assert (allowed i p = true) by (apply allowed_true; eauto). congruence.
      - intros i Hl. destruct (GET i Hl) as (l & N & I). rewrite (ROW i l N), <- lc_concat.
        assert (E : nth i szs 0 = samples_of leqb labels l).
        { unfold szs. rewrite (nth_map_in _ _ _ l) by (now rewrite <- LS). rewrite (nth_error_nth _ _ l N). now apply sizeof_get. }
        rewrite E, <- lc_seq. apply lc_submset. now apply disjoint_submset.
      - intros p Hp. rewrite map_map.
        rewrite (map_ext _ (fun l => label_count leqb labels l (nth p ps []))) by (intro; rewrite (nth_map_in _ _ _ []) by lia; auto).
        rewrite count_all.
        + rewrite <- (lengths_nth ps), LEN. reflexivity.
        + apply ls_nd.
        + intros i I. assert (IC : In i (concat ps)).
          { apply in_concat. exists (nth p ps []). split; auto. apply nth_In. lia. }
          destruct DIS as [_ DIS]. apply DIS in IC. destruct (nth_error labels i) as [l|] eqn:N; [|apply nth_error_None in N; lia].
          exists l. split; auto. apply ls_in. split; [eapply nth_error_In; eauto|].
          exists (nth p groups []). split; [apply nth_In; lia|]. eapply RES; eauto.
    Qed.
    Lemma fill_allowed_spec : match fill_allowed leqb rle perm imax d groups pcounts with
      | Some ps => respects labels (fun p l => In l (nth p groups [])) pcounts ps
      | None => ~ exists ps, respects labels (fun p l => In l (nth p groups [])) pcounts ps
      end.
    Proof.
      unfold fill_allowed. fold rem0. fold rem. fold ls.
      pose proof (allocations_spec imax szs allowed pcounts Hi) as S. fold szs.
      change (fun i p : nat => match nth_error ls i with Some l => match nth_error groups p with Some g => memb leqb l g | None => false end | None => false end) with allowed.
      destruct (allocations imax szs allowed pcounts) as [al|].
      - now apply fill_sound.
      - intros (ps & R). apply S. eapply fill_complete; eauto.
    Qed.
  End Fill.
End LQ.
