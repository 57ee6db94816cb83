(** Save, load and clean up on files. *)
From Coq Require Import Ascii String List Bool Arith Permutation Lia Sorted Psatz.
From Verif.Model Require Import PyDict Checkpoint CkFiles.
From Verif.Spec Require Import CkFilesSpec.
From Verif.Proofs Require Import PyDictProofs CheckpointProofs CkFilesProofs.
Import ListNotations.
Open Scope nat_scope.
Local Open Scope list_scope.

Lemma nspec a b : reflect (a = b) (neqb a b).
Proof. unfold neqb. destruct (list_eq_dec ascii_dec a b); constructor; auto. Qed.

Lemma sorted_unique a b : StronglySorted ge a -> StronglySorted ge b -> Permutation a b -> a = b.
Proof.
  intro H. revert b. induction H as [|x a S IH F]; intros b B P; [apply Permutation_nil in P; auto|].
  destruct b as [|y b]; [apply Permutation_sym, Permutation_nil in P; discriminate|]. inversion B as [|? ? B' FB]; subst.
  rewrite Forall_forall in F, FB.
  assert (x = y).
  { assert (I1 : In x (y :: b)) by (apply (Permutation_in _ P); now left). assert (I2 : In y (x :: a)) by (apply (Permutation_in _ (Permutation_sym P)); now left).
    destruct I1 as [->|I1]; auto. destruct I2 as [->|I2]; auto. specialize (F _ I2). specialize (FB _ I1). lia. }
  subst y. f_equal. apply IH; auto. eapply Permutation_cons_inv; eauto.
Qed.

(** ** the sort *)
Definition desc (x y : nat * name) : Prop := fst y <= fst x.
Lemma ins_perm x l : Permutation (insert_key x l) (x :: l).
Proof. induction l as [|y l IH]; cbn [insert_key]; [auto|]. destruct (fst y <=? fst x); [auto|]. eapply perm_trans; [apply perm_skip, IH|apply perm_swap]. Qed.
Lemma sk_perm l : Permutation (sort_keys l) l.
Proof. induction l as [|x l IH]; cbn; [auto|]. eapply perm_trans; [apply ins_perm|now apply perm_skip]. Qed.
Lemma ins_sorted x l : StronglySorted desc l -> StronglySorted desc (insert_key x l).
Proof.
  induction 1 as [|y l S IH F]; cbn [insert_key]; [repeat constructor|]. destruct (Nat.leb_spec (fst y) (fst x)).
  - constructor; [now constructor|]. constructor; [exact H|]. eapply Forall_impl; [|exact F]. unfold desc. intros; lia.
  - constructor; auto. apply Forall_forall. intros z I. apply (Permutation_in _ (ins_perm x l)) in I. destruct I as [<-|I]; [unfold desc; lia|]. rewrite Forall_forall in F. now apply F.
Qed.
Lemma sk_sorted l : StronglySorted desc (sort_keys l).
Proof. induction l as [|x l IH]; cbn; [constructor|]. now apply ins_sorted. Qed.
Lemma sorted_split l n : StronglySorted desc l -> forall a b, In a (firstn n l) -> In b (skipn n l) -> fst b <= fst a.
Proof.
  intro S. revert n. induction S as [|x l S IH F]; intros [|n] a b A B; cbn in *; try tauto. rewrite Forall_forall in F.
  destruct A as [<-|A]; [|eauto]. apply F. rewrite <- (firstn_skipn n l). apply in_or_app. now right.
Qed.
(** an element that is dropped has at least [n] others with a key as large *)
Lemma dropped_rank l n x : StronglySorted desc l -> In x (skipn n l) -> n < length (filter (fun y => fst x <=? fst y) l).
Proof.
  intros S. revert n. induction S as [|y l S IH F]; intros n I; [rewrite skipn_nil in I; destruct I|].
  rewrite Forall_forall in F. destruct n as [|n]; cbn [skipn] in I; cbn [filter].
  - destruct I as [->|I].
    + rewrite Nat.leb_refl. cbn. lia.
    + specialize (IH 0 I). destruct (fst x <=? fst y); cbn; lia.
  - specialize (IH n I). assert (J : In x l) by (rewrite <- (firstn_skipn n l); apply in_or_app; now right). specialize (F x J). unfold desc in F.
    rewrite (proj2 (Nat.leb_le _ _) F). cbn. lia.
Qed.

Lemma with_keys_spec ns l : with_keys ns = Some l <-> map snd l = ns /\ Forall (fun x => names (snd x) (fst x)) l.
Proof.
  revert l. induction ns as [|n ns IH]; intro l; cbn.
  - split; [intro H; injection H as <-; auto|]. intros (H & _). destruct l; [auto|discriminate].
  - destruct (ck_iteration n) as [k|] eqn:E.
    + destruct (with_keys ns) as [r|].
      * split.
        -- intro H. injection H as <-. destruct (proj1 (IH r) eq_refl) as (A & B). cbn. split; [now rewrite A|]. constructor; [now apply parse_iff|exact B].
        -- intros (A & B). destruct l as [|(j, m) l]; [discriminate|]. cbn in A. injection A as -> A. inversion B; subst. cbn in *. apply parse_iff in H1.
           assert (R : Some r = Some l) by (apply IH; auto). congruence.
      * split; [discriminate|]. intros (A & B). destruct l as [|(j, m) l]; [discriminate|]. cbn in A. injection A as -> A. inversion B; subst.
        assert (R : None = Some l) by (apply IH; auto). discriminate.
    + split; [discriminate|]. intros (A & B). destruct l as [|(j, m) l]; [discriminate|]. cbn in A. injection A as -> A. inversion B; subst. cbn in *. apply parse_iff in H1. congruence.
Qed.
Lemma with_keys_total ns : (forall n, In n ns -> exists k, names n k) -> exists l, with_keys ns = Some l.
Proof.
  induction ns as [|n ns IH]; intro H; cbn; [eauto|]. destruct (H n (or_introl eq_refl)) as (k & K). apply parse_iff in K. rewrite K.
  destruct IH as (l & ->); [intros; apply H; now right|]. eauto.
Qed.

Section R.
  Context {D : Type}.
  Variable ord : list name -> list name.
  Hypothesis ORD : listing ord.
  Implicit Types fs : fdir D.

  Lemma found_in fs n : In n (found ord fs) <-> In n (dkeys fs) /\ looks_like n.
  Proof.
    unfold found. rewrite in_app_iff, !filter_In, <- looks_iff. unfold is_ck. rewrite orb_true_iff.
    assert (P : forall l, In n (ord l) <-> In n l) by (intro l; split; apply Permutation_in; [apply ORD|symmetry; apply ORD]). rewrite P. tauto.
  Qed.
  Lemma found_nodup fs : NoDup (dkeys fs) -> NoDup (found ord fs).
  Proof.
    intro N. assert (NO : NoDup (ord (dkeys fs))) by (eapply Permutation_NoDup; [symmetry; apply ORD|exact N]).
    unfold found. revert NO. generalize (ord (dkeys fs)) as l. intros l NO.
    assert (G : forall a b : list name, NoDup a -> NoDup b -> (forall x, In x a -> In x b -> False) -> NoDup (a ++ b)).
    { induction a as [|x a IH]; intros b A B H; cbn; auto. inversion A; subst. constructor.
      - rewrite in_app_iff. intros [I|I]; [auto|]. apply (H x); auto. now left.
      - apply IH; auto. intros y Y1 Y2. apply (H y); auto. now right. }
    apply G; try (apply NoDup_filter; auto). intros x A B. apply filter_In in A, B. apply (glob_one x); tauto.
  Qed.

  (** *** unlinking *)
  Lemma unlinks ns fs : NoDup (dkeys fs) -> let fs' := fapply_all (map FUnlink ns) fs in
    NoDup (dkeys fs') /\ (forall n, dget neqb fs' n = if in_dec (list_eq_dec ascii_dec) n ns then None else dget neqb fs n) /\
    (forall n, In n (dkeys fs') <-> In n (dkeys fs) /\ ~ In n ns).
  Proof.
    assert (K : forall d : fdir D, forall n, In n (dkeys d) <-> dget neqb d n <> None).
    { intros d n. rewrite (dget_None_iff _ _ neqb nspec d n). destruct (in_dec (list_eq_dec ascii_dec) n (dkeys d)); tauto. }
    assert (M : forall ns fs, NoDup (dkeys fs) -> let fs' := fapply_all (map FUnlink ns) fs in
      NoDup (dkeys fs') /\ (forall n, dget neqb fs' n = if in_dec (list_eq_dec ascii_dec) n ns then None else dget neqb fs n)).
    { clear ns fs. induction ns as [|m ns IH]; intros fs N fs'; [cbn; split; auto|].
      unfold fs'. change (fapply_all (map FUnlink (m :: ns)) fs) with (fapply_all (map FUnlink ns) (dpop neqb fs m)).
      destruct (IH (dpop neqb fs m) (NoDup_dpop _ _ neqb _ _ N)) as (A & B). split; [exact A|]. intro n. rewrite B.
      rewrite (dget_dpop _ _ neqb nspec _ _ _ N).
      destruct (in_dec (list_eq_dec ascii_dec) n ns) as [I|I], (in_dec (list_eq_dec ascii_dec) n (m :: ns)) as [J|J]; auto; cbn in J.
      - tauto.
      - destruct (nspec n m); [auto|]. exfalso. intuition congruence.
      - destruct (nspec n m); [exfalso; intuition congruence|auto]. }
    intros N fs'. destruct (M ns fs N) as (A & B). fold fs' in A, B. split; [exact A|]. split; [exact B|]. intro n. rewrite !K, B.
    destruct (in_dec (list_eq_dec ascii_dec) n ns); tauto.
  Qed.

  (** *** simulation *)
  Lemma set_key (d : fdir D) n v m : In m (dkeys (dset neqb d n v)) <-> m = n \/ In m (dkeys d).
  Proof.
    rewrite (dkeys_dset _ _ neqb nspec). destruct (dmem neqb d n) eqn:E.
    - split; [auto|]. intros [->|H]; auto. now apply (dmem_In _ _ neqb nspec) in E.
    - rewrite in_app_iff. cbn. split; [intros [H|[H|[]]]; auto|]. intros [->|H]; auto.
  Qed.
  Lemma holds_step fs s x : holds fs s -> holds (fapply fs (on_files x)) (apply s x).
  Proof.
    intros (N1 & N2 & CK & PR & CO & LK).
    assert (SETO : forall n v, ~ looks_like n -> forall m, In m (dkeys (dset neqb fs n v)) -> looks_like m -> exists k, m = ck_name k).
    { intros n v NL m I L. apply set_key in I. destruct I as [->|I]; [tauto|eauto]. }
    assert (SETC : forall k v m, In m (dkeys (dset neqb fs (ck_name k) v)) -> looks_like m -> exists k, m = ck_name k).
    { intros k v m I L. apply set_key in I. destruct I as [->|I]; eauto. }
    assert (NP : ~ looks_like progress_name) by (apply other_looks; cbn; auto). assert (NC : ~ looks_like complete_name) by (apply other_looks; cbn; auto).
    assert (PC : progress_name <> complete_name) by discriminate.
    assert (CKS : forall k (v : file D) j, dget neqb (dset neqb fs (ck_name k) (as_ck v)) (ck_name j) = option_map as_ck (dget Nat.eqb (dset Nat.eqb (d_ck s) k v) j)).
    { intros k v j. destruct (Nat.eq_dec k j) as [->|NE].
      - rewrite (dget_dset_eq _ _ neqb nspec), (dget_dset_eq _ _ Nat.eqb Nat.eqb_spec). reflexivity.
      - rewrite (dget_dset_neq _ _ neqb nspec), (dget_dset_neq _ _ Nat.eqb Nat.eqb_spec); auto. intro E. apply ck_inj in E. auto. }
    destruct x as [k|k d|k| |k| |k|]; cbn [on_files fapply apply]; unfold holds; cbn [d_ck d_prog d_comp].
    - split; [now apply (NoDup_dset _ _ neqb nspec)|]. split; [now apply (NoDup_dset _ _ Nat.eqb Nat.eqb_spec)|].
      split; [exact (CKS k Torn)|]. split; [|split].
      + rewrite (dget_dset_neq _ _ neqb nspec); auto using ck_progress.
      + rewrite (dget_dset_neq _ _ neqb nspec); auto using ck_complete.
      + apply SETC.
    - split; [now apply (NoDup_dset _ _ neqb nspec)|]. split; [now apply (NoDup_dset _ _ Nat.eqb Nat.eqb_spec)|].
      split; [exact (CKS k (Full d))|]. split; [|split].
      + rewrite (dget_dset_neq _ _ neqb nspec); auto using ck_progress.
      + rewrite (dget_dset_neq _ _ neqb nspec); auto using ck_complete.
      + apply SETC.
    - split; [now apply (NoDup_dpop _ _ neqb)|]. split; [now apply (NoDup_dpop _ _ Nat.eqb)|].
      split; [|split; [|split]].
      + intro j. destruct (Nat.eq_dec k j) as [->|NE].
        * rewrite (dget_dpop_eq _ _ neqb nspec), (dget_dpop_eq _ _ Nat.eqb Nat.eqb_spec); auto.
        * rewrite (dget_dpop_neq _ _ neqb nspec), (dget_dpop_neq _ _ Nat.eqb Nat.eqb_spec); auto. intro E. apply ck_inj in E. auto.
      + rewrite (dget_dpop_neq _ _ neqb nspec); auto using ck_progress.
      + rewrite (dget_dpop_neq _ _ neqb nspec); auto using ck_complete.
      + intros m I L. apply (In_dkeys_dpop _ _ neqb) in I. eauto.
    - split; [now apply (NoDup_dset _ _ neqb nspec)|]. split; [exact N2|]. split; [|split; [|split]].
      + intro j. rewrite (dget_dset_neq _ _ neqb nspec); auto. intro E. symmetry in E. now apply ck_progress in E.
      + now rewrite (dget_dset_eq _ _ neqb nspec).
      + rewrite (dget_dset_neq _ _ neqb nspec); auto.
      + apply SETO; auto.
    - split; [now apply (NoDup_dset _ _ neqb nspec)|]. split; [exact N2|]. split; [|split; [|split]].
      + intro j. rewrite (dget_dset_neq _ _ neqb nspec); auto. intro E. symmetry in E. now apply ck_progress in E.
      + now rewrite (dget_dset_eq _ _ neqb nspec).
      + rewrite (dget_dset_neq _ _ neqb nspec); auto.
      + apply SETO; auto.
    - split; [now apply (NoDup_dset _ _ neqb nspec)|]. split; [exact N2|]. split; [|split; [|split]].
      + intro j. rewrite (dget_dset_neq _ _ neqb nspec); auto. intro E. symmetry in E. now apply ck_complete in E.
      + rewrite (dget_dset_neq _ _ neqb nspec); auto.
      + now rewrite (dget_dset_eq _ _ neqb nspec).
      + apply SETO; auto.
    - split; [now apply (NoDup_dset _ _ neqb nspec)|]. split; [exact N2|]. split; [|split; [|split]].
      + intro j. rewrite (dget_dset_neq _ _ neqb nspec); auto. intro E. symmetry in E. now apply ck_complete in E.
      + rewrite (dget_dset_neq _ _ neqb nspec); auto.
      + now rewrite (dget_dset_eq _ _ neqb nspec).
      + apply SETO; auto.
    - split; [now apply (NoDup_dpop _ _ neqb)|]. split; [exact N2|]. split; [|split; [|split]].
      + intro j. rewrite (dget_dpop_neq _ _ neqb nspec); auto. intro E. symmetry in E. now apply ck_complete in E.
      + rewrite (dget_dpop_neq _ _ neqb nspec); auto.
      + rewrite (dget_dpop_eq _ _ neqb nspec); auto.
      + intros m I L. apply (In_dkeys_dpop _ _ neqb) in I. eauto.
  Qed.
  Lemma holds_all l fs s : holds fs s -> holds (fapply_all (map on_files l) fs) (apply_all l s).
  Proof. revert fs s. induction l as [|x l IH]; intros fs s H; [exact H|]. cbn. apply IH. now apply holds_step. Qed.

  Lemma key_iff fs s k : holds fs s -> In (ck_name k) (dkeys fs) <-> In k (dkeys (d_ck s)).
  Proof.
    intros (_ & _ & CK & _). specialize (CK k). pose proof (dget_None_iff _ _ neqb nspec fs (ck_name k)) as A. pose proof (dget_None_iff _ _ Nat.eqb Nat.eqb_spec (d_ck s) k) as B.
    destruct (dget Nat.eqb (d_ck s) k), (dget neqb fs (ck_name k)); cbn in CK; try discriminate;
      destruct (in_dec Nat.eq_dec k (dkeys (d_ck s))), (in_dec (list_eq_dec ascii_dec) (ck_name k) (dkeys fs)); try tauto;
      exfalso; intuition discriminate.
  Qed.
  Lemma cleanup_sim keep fs s : holds fs s -> fcleanup ord keep fs = Some (map on_files (cleanup keep s)).
  Proof.
    intro H. pose proof H as (N1 & N2 & _ & _ & _ & LK). unfold fcleanup, cleanup.
    destruct (with_keys_total (found ord fs)) as (l & E).
    { intros n I. apply found_in in I. destruct (LK n (proj1 I) (proj2 I)) as (k & ->). exists k. apply ck_names. }
    rewrite E. f_equal. apply with_keys_spec in E. destruct E as (EN & F). rewrite Forall_forall in F.
    assert (SH : forall x, In x l -> snd x = ck_name (fst x)).
    { intros x I. assert (J : In (snd x) (found ord fs)) by (rewrite <- EN; now apply in_map). apply found_in in J. destruct (LK _ (proj1 J) (proj2 J)) as (k & K).
      rewrite K. f_equal. apply (names_fun (snd x)); [rewrite K; apply ck_names|now apply F]. }
    assert (PM : Permutation (map fst l) (dkeys (d_ck s))).
    { apply NoDup_Permutation; [|exact N2|].
      - apply (NoDup_map_inv ck_name). rewrite map_map. replace (map (fun x => ck_name (fst x)) l) with (map snd l) by (apply map_ext_in; auto). rewrite EN. now apply found_nodup.
      - intro k. rewrite <- (key_iff fs s k H). split.
        + intro I. apply in_map_iff in I. destruct I as (x & <- & I). rewrite <- (SH x I). apply (found_in fs). rewrite <- EN. now apply in_map.
        + intro I. assert (J : In (ck_name k) (map snd l)) by (rewrite EN; apply found_in; split; [exact I|apply ck_looks]).
          apply in_map_iff in J. destruct J as (x & EX & J). apply in_map_iff. exists x. split; [|exact J]. apply ck_inj. rewrite <- EX. symmetry. now apply SH. }
    assert (SO : map fst (sort_keys l) = sort_desc (dkeys (d_ck s))).
    { apply sorted_unique; [|apply sort_sorted|].
      - generalize (sk_sorted l). generalize (sort_keys l). clear. intros l S. induction S as [|x l S IH FF]; cbn; constructor; auto.
        apply Forall_forall. intros k I. apply in_map_iff in I. destruct I as (y & <- & I). rewrite Forall_forall in FF. apply (FF y I).
      - eapply perm_trans; [apply Permutation_map, sk_perm|]. eapply perm_trans; [exact PM|]. symmetry. apply sort_perm. }
    rewrite <- SO, map_map. rewrite skipn_map, map_map. apply map_ext_in. intros x I. cbn [on_files]. f_equal. apply SH.
    apply (Permutation_in _ (sk_perm l)). rewrite <- (firstn_skipn keep (sort_keys l)). apply in_or_app. now right.
  Qed.
  Lemma there_sim fs s k : holds fs s -> there fs (ck_name k) = dmem Nat.eqb (d_ck s) k.
  Proof. intros (_ & _ & CK & _). unfold there, dmem. rewrite CK. destruct (dget Nat.eqb (d_ck s) k); reflexivity. Qed.
  Lemma save_sim keep k d fs s : holds fs s ->
    fsave ord keep k d fs = match save keep k d s with None => ([], false) | Some x => (map on_files x, true) end.
  Proof.
    intro H. pose proof H as (_ & _ & _ & PR & _). unfold fsave, save, already_saved. rewrite (there_sim fs s k H), PR.
    set (l := [TruncCk k; WriteCk k d; TruncProg; WriteProg k]).
    assert (GO : fcleanup ord keep (fapply_all [FTrunc (ck_name k); FWrite (ck_name k) (Ck d); FTrunc progress_name; FWrite progress_name (Prog k)] fs)
      = Some (map on_files (cleanup keep (apply_all l s)))) by (apply cleanup_sim; exact (holds_all l fs s H)).
    rewrite GO. destruct (dmem Nat.eqb (d_ck s) k); [|cbn zeta; now rewrite map_app].
    destruct (d_prog s) as [[|p]|]; cbn [option_map as_prog]; try reflexivity. destruct (p =? k); [reflexivity|]. cbn zeta. now rewrite map_app.
  Qed.
  Lemma mark_sim keep k d fs s : holds fs s ->
    fmark ord keep k d fs = match mark_complete keep k d s with None => ([], false) | Some x => (map on_files x, true) end.
  Proof.
    intro H. unfold fmark, mark_complete. rewrite (save_sim keep k d fs s H). destruct (save keep k d s) as [x|]; [|reflexivity]. rewrite map_app. reflexivity.
  Qed.
  Lemma load_sim fs s : holds fs s -> fload fs = load s.
  Proof.
    intro H. pose proof H as (_ & _ & CK & PR & _ & LK). unfold fload, load. rewrite PR. destruct (d_prog s) as [[|k]|]; cbn [option_map as_prog]; try reflexivity.
    unfold resolve. rewrite (there_sim fs s k H). unfold dmem. destruct (dget Nat.eqb (d_ck s) k) as [f|] eqn:E.
    - rewrite CK, E. destruct f; reflexivity.
    - assert (NL : there fs (legacy_name k) = false).
      { destruct (there fs (legacy_name k)) eqn:T; [|reflexivity]. apply (dmem_In _ _ neqb nspec) in T. destruct (LK _ T (legacy_looks k)) as (j & J). symmetry in J. now apply ck_legacy in J. }
      rewrite NL, CK, E. reflexivity.
  Qed.
  Lemma result_sim fs s : holds fs s -> fload_result fs = load_result s.
  Proof.
    intros (_ & _ & CK & _ & CO & _). unfold fload_result, load_result. rewrite CO. destruct (d_comp s) as [[|k]|]; cbn [option_map as_comp]; try reflexivity.
    rewrite CK. destruct (dget Nat.eqb (d_ck s) k) as [[|d]|]; reflexivity.
  Qed.
End R.
