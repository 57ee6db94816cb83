(** C103: the files of a trial directory. *)
From Coq Require Import Ascii String List Bool Arith Permutation Lia Sorted.
From Verif.Model Require Import PyDict Checkpoint CkFiles.
From Verif.Spec Require Import CkFilesSpec.
From Verif.Proofs Require Import PyDictProofs CheckpointProofs CkFilesProofs CkFilesRefine.
Import ListNotations.
Open Scope nat_scope.
Local Open Scope list_scope.

(** A file name is read as iteration [k] exactly if it is "checkpoint_", decimal
    digits that denote [k], and one of the two extensions. *)
Theorem C103_names_read : forall s k, ck_iteration s = Some k <-> names s k.
Proof. exact parse_iff. Qed.
(** The names given to the checkpoints of an iteration are read as that iteration;
    no two checkpoints share a name, and none has the name of the other files. *)
Theorem C103_names_distinct : forall k,
  names (ck_name k) k /\ names (legacy_name k) k /\ looks_like (ck_name k) /\ looks_like (legacy_name k) /\
  (forall j, ck_name j = ck_name k -> j = k) /\ (forall j, legacy_name j = legacy_name k -> j = k) /\ (forall j, ck_name j <> legacy_name k) /\
  (forall n, In n [progress_name; complete_name] -> n <> ck_name k /\ n <> legacy_name k /\ ~ looks_like n).
Proof.
  intro k. repeat split; auto using ck_names, legacy_names, ck_looks, legacy_looks, ck_inj, legacy_inj, ck_legacy.
  - intros ->. eapply other_looks; eauto using ck_looks.
  - intros ->. eapply other_looks; eauto using legacy_looks.
  - now apply other_looks.
Qed.
(** seven digits below ten million iterations, more above *)
Theorem C103_name_width : forall k, k < 10 ^ 7 -> exists ds, ck_name k = str "checkpoint_" ++ ds ++ str ".pkl.zst" /\ List.length ds = 7.
Proof. intros k H. exists (pad7 k). split; [reflexivity|now apply pad7_width]. Qed.
Example C103_name_case : ck_name 100 = str "checkpoint_0000100.pkl.zst" /\ legacy_name 7 = str "checkpoint_0000007.pkl" /\
  ck_iteration (str "checkpoint_12.pkl") = Some 12 /\ ck_iteration (str "checkpoint_best.pkl") = None.
Proof. vm_compute. auto. Qed.

(** The calls of the manager on files do what Model/Checkpoint.v says they do on
    iterations, effect by effect: what is proved there about crashes and resumption
    (C42, C43, C46) holds of the files. *)
Theorem C103_files_follow : forall (D : Type) ord (fs : fdir D) s, listing ord -> holds fs s ->
  (forall keep k d, fsave ord keep k d fs = match save keep k d s with None => ([], false) | Some x => (map on_files x, true) end) /\
  (forall keep k d, fmark ord keep k d fs = match mark_complete keep k d s with None => ([], false) | Some x => (map on_files x, true) end) /\
  fload fs = load s /\ fload_result fs = load_result s /\ fcomplete fs = is_complete s /\
  (forall x, holds (fapply fs (on_files x)) (apply s x)).
Proof.
  intros D ord fs s O H. split; [intros; now apply save_sim|]. split; [intros; now apply mark_sim|]. split; [now apply load_sim|]. split; [now apply result_sim|].
  split; [|intro x; now apply holds_step]. destruct H as (_ & _ & _ & _ & CO & _). unfold fcomplete, there, dmem, is_complete. rewrite CO. destruct (d_comp s); reflexivity.
Qed.
(** Hence, whatever calls were made on a directory that began empty, each cut off
    anywhere. *)
Theorem C103_any_history : forall (D : Type) ord (l : list (op D * nat)), listing ord ->
  let fs := fold_left (do_files ord) l [] in let s := fold_left do_dir l empty_dir in
  holds fs s /\ fload fs = load s /\ fload_result fs = load_result s /\ fcomplete fs = is_complete s.
Proof.
  intros D ord l O fs s. assert (H : holds fs s).
  { unfold fs, s. assert (E : holds (@nil (name * file (data D))) empty_dir).
    { repeat split; try constructor. intros n []. }
    revert E. generalize (@nil (name * file (data D))) as f0. generalize (@empty_dir D) as s0. clear fs s.
    induction l as [|(o, n) l IH]; intros s0 f0 E; [exact E|]. cbn [fold_left]. apply IH. clear IH.
    destruct (C103_files_follow D ord f0 s0 O E) as (SV & MK & _ & _ & CP & _). unfold do_files, do_dir. cbn [fst snd]. destruct o as [keep k d|keep k d|].
    - rewrite SV. destruct (save keep k d s0) as [x|]; cbn [fst]; [rewrite firstn_map; now apply holds_all|rewrite !firstn_nil; exact E].
    - rewrite MK. destruct (mark_complete keep k d s0) as [x|]; cbn [fst]; [rewrite firstn_map; now apply holds_all|rewrite !firstn_nil; exact E].
    - unfold funmark. unfold fcomplete in CP. rewrite CP. destruct (is_complete s0); [|rewrite !firstn_nil; exact E].
      change [FUnlink complete_name] with (map (on_files (D := D)) [UnlinkComp]). rewrite firstn_map. now apply holds_all. }
  destruct (C103_files_follow D ord fs s O H) as (_ & _ & A & B & C & _). auto.
Qed.
Example C103_history_case :
  let fs := fold_left (do_files (fun l => l)) [(OSave 2 9 "a"%string, 9); (OSave 2 19 "b"%string, 9); (OSave 2 29 "c"%string, 5); (OMark 2 29 "c"%string, 1)] [] in
  dkeys fs = [progress_name; ck_name 19; ck_name 29; complete_name] /\ fload fs = LSome 29 "c"%string /\ fload_result fs = None.
Proof. vm_compute. auto. Qed.

Section Mixed.
  Context {D : Type}.
  Variable ord : list name -> list name.
  Hypothesis ORD : listing ord.
  Implicit Types fs : fdir D.

  Lemma cleanup_shape keep fs u : fcleanup ord keep fs = Some u -> NoDup (dkeys fs) ->
    exists l, map snd l = found ord fs /\ Forall (fun x => names (snd x) (fst x)) l /\ u = map FUnlink (map snd (skipn keep (sort_keys l))).
  Proof.
    unfold fcleanup. destruct (with_keys (found ord fs)) as [l|] eqn:E; [|discriminate]. intros H N. injection H as <-. apply with_keys_spec in E.
    exists l. destruct E. split; auto. split; auto. now rewrite map_map.
  Qed.

  (** Cleaning up leaves the newest [keep] checkpoints, in whichever format, and
      every file that is not a checkpoint. *)
  Theorem C103_cleanup : forall keep fs u, NoDup (dkeys fs) -> fcleanup ord keep fs = Some u ->
    let fs' := fapply_all u fs in
    (forall n, In n (dkeys fs') -> dget neqb fs' n = dget neqb fs n) /\
    (forall n, In n (dkeys fs') -> In n (dkeys fs)) /\
    (forall n, In n (dkeys fs) -> ~ looks_like n -> In n (dkeys fs')) /\
    (exists kept, NoDup kept /\ (forall n, In n kept <-> checkpoint_in fs' n) /\
      exists all, NoDup all /\ (forall n, In n all <-> checkpoint_in fs n) /\ List.length kept = Nat.min keep (List.length all)) /\
    (forall a b i j, checkpoint_in fs' a -> checkpoint_in fs b -> ~ checkpoint_in fs' b -> names a i -> names b j -> j <= i).
  Proof.
    intros keep fs u N C fs'. destruct (cleanup_shape keep fs u C N) as (l & EN & F & EU).
    set (gone := map snd (skipn keep (sort_keys l))) in *.
    destruct (unlinks gone fs N) as (N' & G & K). rewrite <- EU in N', G, K. fold fs' in N', G, K.
    assert (NL : NoDup (map snd (sort_keys l))).
    { eapply Permutation_NoDup; [apply Permutation_map; symmetry; apply sk_perm|]. rewrite EN. now apply found_nodup. }
    assert (SPL : map snd (firstn keep (sort_keys l)) ++ gone = map snd (sort_keys l)) by (unfold gone; rewrite <- map_app, firstn_skipn; reflexivity).
    assert (INF : forall n, In n (map snd (sort_keys l)) <-> checkpoint_in fs n).
    { intro n. transitivity (In n (found ord fs)); [|now apply found_in]. rewrite <- EN. split; apply Permutation_in, Permutation_map; [apply sk_perm|symmetry; apply sk_perm]. }
    rewrite <- SPL in NL.
    assert (KEPT : forall n, In n (map snd (firstn keep (sort_keys l))) <-> checkpoint_in fs' n).
    { intro n. unfold checkpoint_in. rewrite K. split.
      - intro I. assert (J : checkpoint_in fs n) by (apply INF; rewrite <- SPL; apply in_or_app; now left). split; [split; [apply J|]|apply J].
        intro Q. clear - NL I Q. revert NL. generalize dependent (map snd (firstn keep (sort_keys l))). intros a I NL. induction a as [|x a IH]; [destruct I|].
        cbn in NL. inversion NL; subst. destruct I as [->|I]; [apply H1; apply in_or_app; now right|auto].
      - intros ((I & NG) & L). assert (J : In n (map snd (sort_keys l))) by (apply INF; split; auto). rewrite <- SPL in J. apply in_app_or in J. tauto. }
    split; [|split; [|split; [|split]]].
    - intros n I. rewrite G. apply K in I. destruct (in_dec (list_eq_dec ascii_dec) n gone); tauto.
    - intros n I. apply K in I. tauto.
    - intros n I L. apply K. split; [exact I|]. intro Q. apply L. assert (J : checkpoint_in fs n) by (apply INF; rewrite <- SPL; apply in_or_app; now right). apply J.
    - exists (map snd (firstn keep (sort_keys l))). split; [|split; [exact KEPT|]].
      + clear - NL. revert NL. generalize (map snd (firstn keep (sort_keys l))) as a. induction a as [|x a IH]; intro H; constructor; cbn in H; inversion H; subst; auto.
        intro I. apply H2. apply in_or_app. now left.
      + exists (map snd (sort_keys l)). rewrite SPL in NL. split; [exact NL|]. split; [exact INF|]. rewrite !map_length, firstn_length. reflexivity.
    - intros a b i j A B NB NI NJ. apply KEPT in A. apply in_map_iff in A. destruct A as ((i', a') & E & IA). cbn in E. subst a'.
      assert (IB : In b gone). { assert (J : In b (map snd (sort_keys l))) by now apply INF. rewrite <- SPL in J. apply in_app_or in J. destruct J as [J|J]; auto. apply KEPT in J. tauto. }
      apply in_map_iff in IB. destruct IB as ((j', b') & E & IB). cbn in E. subst b'.
      pose proof (sorted_split _ keep (sk_sorted l) _ _ IA IB) as LE. cbn in LE. rewrite Forall_forall in F.
      assert (FI : names a i') by (apply (F (i', a)); apply (Permutation_in _ (sk_perm l)); rewrite <- (firstn_skipn keep (sort_keys l)); apply in_or_app; now left).
      assert (FJ : names b j') by (apply (F (j', b)); apply (Permutation_in _ (sk_perm l)); rewrite <- (firstn_skipn keep (sort_keys l)); apply in_or_app; now right).
      rewrite (names_fun a i i' NI FI), (names_fun b j j' NJ FJ). exact LE.
  Qed.

  Lemma newest_stays keep k fs u : own_files fs k -> In (ck_name k) (dkeys fs) -> 2 <= keep \/ (1 <= keep /\ ~ In (legacy_name k) (dkeys fs)) ->
    fcleanup ord keep fs = Some u -> exists gone, u = map FUnlink gone /\ ~ In (ck_name k) gone /\ forall n, In n gone -> looks_like n.
  Proof.
    intros (N & OWN) I KP C. destruct (cleanup_shape keep fs u C N) as (l & EN & F & EU). exists (map snd (skipn keep (sort_keys l))). split; [exact EU|].
    assert (SUB : forall x, In x (skipn keep (sort_keys l)) -> In x l) by (intros x Ix; apply (Permutation_in _ (sk_perm l)); rewrite <- (firstn_skipn keep (sort_keys l)); apply in_or_app; now right).
    rewrite Forall_forall in F. assert (FD : forall x, In x l -> In (snd x) (dkeys fs) /\ looks_like (snd x)) by (intros x Ix; apply (found_in ord ORD); rewrite <- EN; now apply in_map).
    split; [|intros n J; apply in_map_iff in J; destruct J as (x & <- & J); apply FD; auto].
    intro Q. apply in_map_iff in Q. destruct Q as ((k', n) & E & Q). cbn in E. subst n.
    assert (k' = k) by (apply (names_fun (ck_name k)); [exact (F _ (SUB _ Q))|apply ck_names]). subst k'.
    pose proof (dropped_rank _ _ _ (sk_sorted l) Q) as DR. cbn [fst] in DR. rewrite (filter_len_perm _ _ _ (sk_perm l)) in DR.
    set (top := filter (fun y => k <=? fst y) l) in *.
    assert (TN : NoDup (map snd top)).
    { assert (NL : NoDup (map snd l)) by (rewrite EN; now apply found_nodup). unfold top. clear - NL. induction l as [|x l IH]; cbn in *; [constructor|]. inversion NL; subst.
      destruct (k <=? fst x); [|auto]. cbn. constructor; [|auto]. intro I. apply H1. apply in_map_iff in I. destruct I as (y & E & I). apply filter_In in I. apply in_map_iff. exists y. tauto. }
    assert (TI : forall n, In n (map snd top) -> n = ck_name k \/ (n = legacy_name k /\ In (legacy_name k) (dkeys fs))).
    { intros n J. apply in_map_iff in J. destruct J as (x & <- & J). apply filter_In in J. destruct J as (J & L). apply Nat.leb_le in L.
      destruct (FD x J) as (J1 & J2). destruct (OWN _ J1 J2) as ((j & MJ) & B). assert (fst x = k) by (specialize (B _ (F x J)); lia).
      assert (j = k). { destruct MJ as [MJ|MJ]; specialize (F x J); rewrite MJ in F; subst k; [apply (names_fun (ck_name j))|apply (names_fun (legacy_name j))]; auto using ck_names, legacy_names. }
      subst j. destruct MJ as [MJ|MJ]; [now left|]. right. rewrite <- MJ. auto. }
    rewrite <- (map_length snd) in DR. destruct KP as [KP|(KP & NL)].
    - assert (LE : List.length (map snd top) <= 2) by (apply (NoDup_incl_length (l' := [ck_name k; legacy_name k]) TN); intros n J; destruct (TI n J) as [->|(-> & _)]; cbn; auto). lia.
    - assert (LE : List.length (map snd top) <= 1) by (apply (NoDup_incl_length (l' := [ck_name k]) TN); intros n J; destruct (TI n J) as [->|(_ & Q')]; [now left|tauto]). lia.
  Qed.

  (** A new checkpoint is what [load_checkpoint] then returns, also in a directory
      with checkpoints in the old format; [keep = 1] needs that there is none of the
      same iteration. *)
  Lemma save_own keep k d fs : own_files fs k -> there fs (ck_name k) = false -> 2 <= keep \/ (1 <= keep /\ ~ In (legacy_name k) (dkeys fs)) ->
    exists l gone, fsave ord keep k d fs = (l, true) /\
      l = [FTrunc (ck_name k); FWrite (ck_name k) (Ck d); FTrunc progress_name; FWrite progress_name (Prog k)] ++ map FUnlink gone /\
      ~ In (ck_name k) gone /\ (forall n, In n gone -> looks_like n) /\
      NoDup (dkeys (fapply_all [FTrunc (ck_name k); FWrite (ck_name k) (Ck d); FTrunc progress_name; FWrite progress_name (Prog k)] fs)).
  Proof.
    intros (N & OWN) T KP. unfold fsave. rewrite T. set (l := [FTrunc (ck_name k); FWrite (ck_name k) (Ck d); FTrunc progress_name; FWrite progress_name (Prog k)]).
    set (f1 := fapply_all l fs).
    assert (KEY : forall n, In n (dkeys f1) <-> n = progress_name \/ n = ck_name k \/ In n (dkeys fs)).
    { intro n. unfold f1, l, fapply_all. cbn [fold_left fapply]. rewrite !set_key. tauto. }
    assert (N1 : NoDup (dkeys f1)) by (unfold f1, l, fapply_all; cbn [fold_left fapply]; repeat apply (NoDup_dset _ _ neqb nspec); exact N).
    assert (NP : ~ looks_like progress_name) by (apply other_looks; cbn; auto).
    assert (OWN1 : own_files f1 k).
    { split; [exact N1|]. intros n I L. apply KEY in I. destruct I as [->|[->|I]]; [tauto| |auto]. split; [exists k; auto|]. intros j J. rewrite (names_fun _ _ _ J (ck_names k)). lia. }
    destruct (with_keys_total (found ord f1)) as (ks & E).
    { intros n I. apply (found_in ord ORD) in I. destruct OWN1 as (_ & O). destruct (O n (proj1 I) (proj2 I)) as ((j & [->| ->]) & _); exists j; auto using ck_names, legacy_names. }
    destruct (fcleanup ord keep f1) as [u|] eqn:CU; [|unfold fcleanup in CU; rewrite E in CU; discriminate].
    assert (KP1 : 2 <= keep \/ 1 <= keep /\ ~ In (legacy_name k) (dkeys f1)).
    { destruct KP as [KP|(KP & NL)]; [now left|right; split; [exact KP|]]. rewrite KEY. intros [Q|[Q|Q]]; [now apply legacy_progress in Q|symmetry in Q; now apply ck_legacy in Q|auto]. }
    destruct (newest_stays keep k f1 u OWN1 ltac:(apply KEY; auto) KP1 CU) as (gone & -> & NG & GL).
    exists (l ++ map FUnlink gone), gone. auto.
  Qed.
  Theorem C103_saved_is_loaded_partial : forall keep k d fs, own_files fs k -> there fs (ck_name k) = false ->
    2 <= keep \/ (1 <= keep /\ ~ In (legacy_name k) (dkeys fs)) ->
    exists l, fsave ord keep k d fs = (l, true) /\ fload (fapply_all l fs) = LSome k d.
  Proof.
    intros keep k d fs OWN T KP. destruct (save_own keep k d fs OWN T KP) as (l & gone & E & EL & NG & GL & N1). exists l. split; [exact E|].
    rewrite EL. unfold fapply_all in *. rewrite fold_left_app. set (f1 := fold_left fapply _ fs) in *.
    destruct (unlinks gone f1 N1) as (_ & G & _). unfold fapply_all in G. unfold fload.
    assert (GP : ~ In progress_name gone) by (intro Q; apply (other_looks progress_name); [cbn; auto|auto]).
    rewrite G. destruct (in_dec (list_eq_dec ascii_dec) progress_name gone); [tauto|].
    assert (P1 : dget neqb f1 progress_name = Some (Full (Prog k))) by (unfold f1; cbn [fold_left fapply]; apply (dget_dset_eq _ _ neqb nspec)).
    assert (C1 : dget neqb f1 (ck_name k) = Some (Full (Ck d))).
    { unfold f1; cbn [fold_left fapply]. rewrite !(dget_dset_neq _ _ neqb nspec) by (intro Q; symmetry in Q; now apply ck_progress in Q). apply (dget_dset_eq _ _ neqb nspec). }
    assert (C2 : dget neqb (fold_left fapply (map FUnlink gone) f1) (ck_name k) = Some (Full (Ck d))) by (rewrite G; destruct (in_dec (list_eq_dec ascii_dec) (ck_name k) gone); tauto).
    rewrite P1. unfold resolve, there. unfold dmem at 1. rewrite C2. cbn iota. now rewrite C2.
  Qed.
  (** and marking a trial complete stores its result *)
  Theorem C103_result_stored_partial : forall keep k d fs, own_files fs k -> there fs (ck_name k) = false ->
    2 <= keep \/ (1 <= keep /\ ~ In (legacy_name k) (dkeys fs)) ->
    exists l, fmark ord keep k d fs = (l, true) /\ fload_result (fapply_all l fs) = Some d.
  Proof.
    intros keep k d fs OWN T KP. destruct (save_own keep k d fs OWN T KP) as (l & gone & E & EL & NG & GL & N1).
    unfold fmark. rewrite E. eexists. split; [reflexivity|]. rewrite EL. unfold fapply_all in *. rewrite !fold_left_app. set (f1 := fold_left fapply _ fs) in *.
    destruct (unlinks gone f1 N1) as (_ & G & _). unfold fapply_all in G. set (f2 := fold_left fapply (map FUnlink gone) f1) in *.
    cbn [fold_left fapply]. unfold fload_result. rewrite (dget_dset_eq _ _ neqb nspec).
    rewrite !(dget_dset_neq _ _ neqb nspec) by (intro Q; symmetry in Q; now apply ck_complete in Q). rewrite G.
    destruct (in_dec (list_eq_dec ascii_dec) (ck_name k) gone); [tauto|].
    assert (C1 : dget neqb f1 (ck_name k) = Some (Full (Ck d))).
    { unfold f1; cbn [fold_left fapply]. rewrite !(dget_dset_neq _ _ neqb nspec) by (intro Q; symmetry in Q; now apply ck_progress in Q). apply (dget_dset_eq _ _ neqb nspec). }
    now rewrite C1.
  Qed.
  (** A directory left by a version that wrote the old format can be resumed. *)
  Theorem C103_old_format_loads : forall fs k d, dget neqb fs progress_name = Some (Full (Prog k)) -> there fs (ck_name k) = false ->
    dget neqb fs (legacy_name k) = Some (Full (Ck d)) -> fload fs = LSome k d.
  Proof. intros fs k d P T L. unfold fload, resolve. rewrite P, T. unfold there, dmem. rewrite L. cbn iota. now rewrite L. Qed.
End Mixed.

(** A trial left by an older version just before it was marked complete, resumed
    with [keep_n_checkpoints = 1]: the new final checkpoint is removed in favour of
    the old one, and the result of the completed trial cannot be read. *)
Definition old_dir : fdir string := [(legacy_name 9, Full (Ck "old"%string)); (progress_name, Full (Prog 9))].
Theorem C103_old_format_result_refuted : exists (fs : fdir string) k d, own_files fs k /\ there fs (ck_name k) = false /\ fload fs = LSome k "old"%string /\
  forall ord, (forall l, ord l = l) -> exists l, fmark ord 1 k d fs = (l, true) /\ fcomplete (fapply_all l fs) = true /\ fload_result (fapply_all l fs) = None.
Proof.
  exists old_dir, 9, "new"%string. split; [|split; [reflexivity|split; [vm_compute; reflexivity|]]].
  - split; [apply NoDup_cons; [cbn; intros [E|[]]; discriminate|apply NoDup_cons; [intros []|constructor]]|].
    intros n [<-|[<-|[]]] L.
    + split; [exists 9; now right|]. intros j J. rewrite (names_fun _ _ _ J (legacy_names 9)). lia.
    + exfalso. revert L. apply other_looks. cbn. auto.
  - intros ord O. assert (E : fmark ord 1 9 "new"%string old_dir = fmark (fun l => l) 1 9 "new"%string old_dir).
    { unfold fmark, fsave. replace (there old_dir (ck_name 9)) with false by reflexivity. unfold fcleanup, found. rewrite !O. reflexivity. }
    rewrite E. eexists. split; [vm_compute; reflexivity|]. vm_compute. auto.
Qed.
Example C103_mixed_case : own_files old_dir 19 /\ there old_dir (ck_name 19) = false /\ ~ In (legacy_name 19) (dkeys old_dir).
Proof.
  split; [|split; [reflexivity|]].
  - split; [apply NoDup_cons; [cbn; intros [E|[]]; discriminate|apply NoDup_cons; [intros []|constructor]]|].
    intros n [<-|[<-|[]]] L.
    + split; [exists 9; now right|]. intros j J. rewrite (names_fun _ _ _ J (legacy_names 9)). lia.
    + exfalso. revert L. apply other_looks. cbn. auto.
  - cbn [dkeys map fst old_dir In]. intros [E|[E|[]]]; [apply legacy_inj in E|]; discriminate.
Qed.
Example C103_cleanup_case : exists u, fcleanup (fun l => l) 2 [(ck_name 19, Full (Ck "b"%string)); (legacy_name 9, Full (Ck "a"%string)); (str "notes.txt", Torn); (ck_name 29, Torn)] = Some u /\
  u = [FUnlink (legacy_name 9)].
Proof. eexists. split; [vm_compute; reflexivity|]. reflexivity. Qed.

(** A file the manager did not write but whose name begins and ends like that of a
    checkpoint makes every further save raise, after the checkpoint is written. *)
Theorem C103_foreign_file_refuted : exists n : name, looks_like n /\
  forall (D : Type) ord keep k (d : D) fs, listing ord -> In n (dkeys fs) -> there fs (ck_name k) = false ->
    snd (fsave ord keep k d fs) = false /\ snd (fmark ord keep k d fs) = false.
Proof.
  exists (str "checkpoint_best.pkl"). split; [exists (str "best"); now left|]. intros D ord keep k d fs O I T.
  assert (E : snd (fsave ord keep k d fs) = false).
  { unfold fsave. rewrite T. set (l := [FTrunc (ck_name k); FWrite (ck_name k) (Ck d); FTrunc progress_name; FWrite progress_name (Prog k)]).
    assert (NC : fcleanup ord keep (fapply_all l fs) = None).
    { unfold fcleanup. destruct (with_keys (found ord (fapply_all l fs))) as [ks|] eqn:W; [|reflexivity]. exfalso. apply with_keys_spec in W. destruct W as (EN & F).
      assert (J : In (str "checkpoint_best.pkl") (found ord (fapply_all l fs))).
      { apply (found_in ord O). split; [|exists (str "best"); now left]. unfold l, fapply_all. cbn [fold_left fapply]. rewrite !set_key. tauto. }
      rewrite <- EN in J. apply in_map_iff in J. destruct J as (x & EX & J). rewrite Forall_forall in F. specialize (F x J). rewrite EX in F. apply parse_iff in F. vm_compute in F. discriminate. }
    rewrite NC. reflexivity. }
  split; [exact E|]. unfold fmark. destruct (fsave ord keep k d fs) as (l, b). cbn in E. subst b. reflexivity.
Qed.

(** A benchmark counts as started as soon as, and only if, a trial of it has a
    checkpoint: for directories with files of the manager only. *)
Lemma contains_app p a b : contains p (a ++ p ++ b) = true.
Proof.
  induction a as [|x a IH]; cbn [app].
  - destruct (p ++ b) as [|y q] eqn:E; cbn [contains]; rewrite <- ?E, strip_app; reflexivity.
  - cbn [contains]. destruct (strip p (x :: a ++ p ++ b)); [reflexivity|exact IH].
Qed.
Theorem C103_started : forall (D : Type) algs trials (dirs : nat -> nat -> fdir D),
  (forall a tr n, In n (dkeys (dirs a tr)) -> n = progress_name \/ n = complete_name \/ managed n) ->
  started algs trials dirs = true <-> exists a tr n, In a algs /\ tr < trials /\ checkpoint_in (dirs a tr) n.
Proof.
  intros D algs trials dirs OWN. unfold started. rewrite existsb_exists. split.
  - intros (a & IA & H). apply existsb_exists in H. destruct H as (tr & IT & H). apply existsb_exists in H. destruct H as (n & IN & G). apply in_seq in IT.
    exists a, tr, n. split; [exact IA|]. split; [lia|]. split; [exact IN|]. destruct (OWN a tr n IN) as [->|[->|(k & [->| ->])]]; auto using ck_looks, legacy_looks; discriminate.
  - intros (a & tr & n & IA & LT & IN & L). exists a. split; [exact IA|]. apply existsb_exists. exists tr. split; [apply in_seq; lia|]. apply existsb_exists. exists n. split; [exact IN|].
    unfold glob_any. destruct L as (r & [->| ->]); rewrite strip_app; [rewrite <- (app_nil_r (str ".pkl"))|change (str ".pkl.zst") with (str ".pkl" ++ str ".zst")]; rewrite ?app_assoc; rewrite <- ?app_assoc; apply contains_app.
Qed.
(** Whatever the directories contain: a benchmark counts as started if and only if a
    trial of it has a file whose name begins with "checkpoint_" and has ".pkl"
    somewhere after that -- also a temporary copy such as "checkpoint_old.pkl.bak". *)
Lemma contains_iff p s : contains p s = true <-> exists a b, s = a ++ p ++ b.
Proof.
  split; [|intros (a & b & ->); apply contains_app]. induction s as [|x s IH]; cbn [contains]; destruct (strip p _) as [r|] eqn:E.
  - intros _. apply strip_some in E. now exists [], r.
  - discriminate.
  - intros _. apply strip_some in E. now exists [], r.
  - intro H. destruct (IH H) as (a & b & ->). now exists (x :: a), b.
Qed.
Theorem C103_started_any : forall (D : Type) algs trials (dirs : nat -> nat -> fdir D),
  started algs trials dirs = true <-> exists a tr r1 r2, In a algs /\ tr < trials /\ In (str "checkpoint_" ++ r1 ++ str ".pkl" ++ r2) (dkeys (dirs a tr)).
Proof.
  intros D algs trials dirs. unfold started. rewrite existsb_exists. split.
  - intros (a & IA & H). apply existsb_exists in H. destruct H as (tr & IT & H). apply existsb_exists in H. destruct H as (n & IN & G). apply in_seq in IT.
    unfold glob_any in G. destruct (strip (str "checkpoint_") n) as [r|] eqn:E; [|discriminate]. apply strip_some in E. apply contains_iff in G. destruct G as (r1 & r2 & ->). subst n.
    exists a, tr, r1, r2. split; [exact IA|]. split; [lia|exact IN].
  - intros (a & tr & r1 & r2 & IA & LT & IN). exists a. split; [exact IA|]. apply existsb_exists. exists tr. split; [apply in_seq; lia|]. apply existsb_exists. eexists. split; [exact IN|].
    unfold glob_any. rewrite strip_app. apply contains_app.
Qed.
Example C103_started_any_case : let d := [(str "checkpoint_old.pkl.bak", Full (@Prog nat 1))] in let e := [(str "checkpoint_old", Full (@Prog nat 1)); (str "notes.pkl", Full (Prog 1))] in
  started [0] 1 (fun _ _ => d) = true /\ started [0] 1 (fun _ _ => e) = false.
Proof. split; vm_compute; reflexivity. Qed.
Example C103_started_case : started [0; 1] 2 (fun a tr => if (a =? 1) && (tr =? 1) then old_dir else []) = true /\ started [0] 2 (fun a tr => if (a =? 1) && (tr =? 1) then old_dir else []) = false.
Proof. split; vm_compute; reflexivity. Qed.

Print Assumptions C103_names_read.
Print Assumptions C103_names_distinct.
Print Assumptions C103_name_width.
Print Assumptions C103_files_follow.
Print Assumptions C103_any_history.
Print Assumptions C103_cleanup.
Print Assumptions C103_saved_is_loaded_partial.
Print Assumptions C103_result_stored_partial.
Print Assumptions C103_old_format_loads.
Print Assumptions C103_old_format_result_refuted.
Print Assumptions C103_foreign_file_refuted.
Print Assumptions C103_started.
Print Assumptions C103_started_any.
